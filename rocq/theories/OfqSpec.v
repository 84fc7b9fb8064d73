(** What users rely on when the node tells them about offers and trades *)
Require Import List Arith NArith ZArith Bool Sorted.
From Verif Require Import BytesLib EngineModel CtrModel HistModel OfqModel.
Import List ListNotations.
Open Scope N_scope.

(** the offers of a chain: height, number within the block, address, owner, currencies *)
Record posted := mk_posted { p_height : N; p_ticket : N; p_id : addr; p_owner : addr; p_bid : addr; p_ask : addr }.
Definition takes_number (i : item) : bool := match i with Deploy _ _ _ _ _ _ | Op _ | Other => true | Nested _ | Pay _ _ _ => false end.
Definition next (t : N) (i : item) : N := if takes_number i then t + 1 else t.
Fixpoint posted_by (h t : N) (l : list item) : list posted :=
  match l with
  | [] => []
  | i :: l => match i with Deploy id owner bid ask _ _ => [mk_posted h t id owner bid ask] | _ => [] end ++ posted_by h (next t i) l
  end.
Definition posted_in (chain : list block) : list posted := flat_map (fun b => posted_by (b_height b) (b_start b) (b_items b)) chain.

(** heights go up; heights and numbers are below 2^32 - 1, amounts and their number fit; currencies are addresses: 32 bytes *)
Record formed (chain : list block) : Prop := mk_formed {
  fm_heights : StronglySorted (fun x y => b_height x < b_height y) chain;
  fm_top : forall b, In b chain -> b_height b < 2 ^ 32 - 1 /\ b_start b + N.of_nat (List.length (b_items b)) < 2 ^ 32 - 1;
  fm_currency : forall b id owner bid ask price partner, In b chain -> In (Deploy id owner bid ask price partner) (b_items b) -> List.length bid = 32%nat /\ List.length ask = 32%nat;
  fm_number : N.of_nat (fold_right (fun b n => List.length (b_items b) + n)%nat O chain) < 2 ^ 63 }.

(** What is said about an offer is so: its terms and what it holds; the amount is the least one that buys all that is left. *)
Record describes (s : state) (d : data) : Prop := mk_describes {
  ds_offer : exists f, s_world s (d_address d) = Some f /\ d_height d = f_height f /\ d_owner d = Offer.owner (f_vars f) /\ d_partner d = Offer.partner (f_vars f) /\
    d_bid d = Offer.bid_currency (f_vars f) /\ d_ask d = Offer.ask_currency (f_vars f) /\ d_price d = Offer.inv_price (f_vars f) /\ d_last_update d = Offer.last_update (f_vars f) /\
    d_bid_balance d = f_bal f (Offer.bid_currency (f_vars f)) /\ d_ask_balance d = f_bal f (Offer.ask_currency (f_vars f));
  ds_amount : d_bid_balance d <= d_ask_amount d * d_price d / 2 ^ 64 /\ forall x, d_bid_balance d <= x * d_price d / 2 ^ 64 -> d_ask_amount d <= x }.
Definition is_some (o : option addr) (a : addr) : Prop := match o with Some x => x = a | None => True end.
(** what is asked for: offers of the chain to anybody, with these currencies, which hold at least [min_bid], and something if [open] *)
Record asked_for (chain : list block) (s : state) (bid ask : option addr) (min_bid : N) (open : bool) (d : data) : Prop := mk_asked {
  ak_posted : exists p, In p (posted_in chain) /\ p_id p = d_address d /\ p_height p = d_height d;
  ak_data : describes s d;
  ak_anybody : d_partner d = None;
  ak_bid : is_some bid (d_bid d);
  ak_ask : is_some ask (d_ask d);
  ak_min : min_bid <= d_bid_balance d;
  ak_open : open = true -> 0 < d_bid_balance d }.
(** the newest first, none twice, only such, no more than [limit], and all that are newer than the last one, or all if there is room; a negative limit is none *)
Record newest (limit : Z) (all : data -> Prop) (l : list data) : Prop := mk_newest {
  nw_order : StronglySorted (fun x y => d_height y <= d_height x) l;
  nw_once : NoDup (map d_address l);
  nw_only : forall d, In d l -> all d;
  nw_limit : (0 <= limit)%Z -> (Z.of_nat (List.length l) <= limit)%Z;
  nw_all : forall d, all d -> In d l \/ ((0 <= limit)%Z /\ Z.of_nat (List.length l) = limit /\ forall x, In x l -> d_height d <= d_height x) }.
Definition limit_ok (limit : Z) : Prop := (- 2 ^ 31 <= limit < 2 ^ 31)%Z.

(** offers that the node can describe: price and amount fit 128 bits *)
Definition presentable (s : state) : Prop := forall a f, s_world s a = Some f ->
  Offer.inv_price (f_vars f) < 2 ^ 128 /\ f_bal f (Offer.bid_currency (f_vars f)) * 2 ^ 64 <= (2 ^ 128 - 1) * Offer.inv_price (f_vars f).

(** The search is not confused: no collision of the hash between what is looked for and what is there, and the currencies that are looked for do not contain the mark
    "ANY" where it could be taken for the mark. *)
Definition string_of (bid ask : option addr) : bytes :=
  match bid, ask with Some b, Some a => a ++ b | Some b, None => ANY ++ b | None, Some a => a ++ ANY | None, None => [] end.
Definition marks (a b : addr) : list bytes := [a ++ b; ANY ++ b; a ++ ANY].
Record clear (H : bytes -> addr) (pairs : list (addr * addr)) (bid ask : option addr) : Prop := mk_clear {
  cl_hash : forall a b x, In (a, b) pairs -> In x (marks a b) -> H x = H (string_of bid ask) -> x = string_of bid ask;
  cl_bid : forall b, bid = Some b -> List.length b = 32%nat /\ forall m, b <> m ++ ANY;
  cl_ask : forall a, ask = Some a -> List.length a = 32%nat /\ forall m, a <> ANY ++ m }.
(** the currencies of offers *)
Definition currencies (chain : list block) : list (addr * addr) := map (fun p => (p_ask p, p_bid p)) (posted_in chain).

(** ** Trades that happened: where, with which offer, deployed when; what the offer gave and got, whether called by a transaction itself, and whether by `trade`;
    how much was paid in, at which price, and what the offer had before *)
Record fact := mk_fact { g_height : N; g_ticket : N; g_offer : addr; g_deployed : N; g_bid : addr; g_ask : addr; g_gave : N; g_got : N; g_direct : bool; g_plain : bool; g_offered : N; g_price : N; g_had : N }.
Definition fact_of (direct : bool) (h t : N) (c : call) (s s' : state) : list fact :=
  match s_world s (o_offer c), s_world s' (o_offer c), o_deposit c with
  | Some f, Some f', Some (_, amount) =>
    let v := f_vars f in
    let g plain p := [mk_fact h t (o_offer c) (f_height f) (Offer.bid_currency v) (Offer.ask_currency v)
      (f_bal f (Offer.bid_currency v) - f_bal f' (Offer.bid_currency v)) (f_bal f' (Offer.ask_currency v) - f_bal f (Offer.ask_currency v)) direct plain amount p (f_bal f (Offer.bid_currency v))] in
    match o_method c with Offer.Trade _ p => g true p | Offer.Accept _ p => g false p | _ => [] end
  | _, _, _ => []
  end.
Section FACTS.
  Variables (H : bytes -> addr) (binary : addr).
  Fixpoint facts_items (base : world) (h t : N) (s : state) (l : list item) : list fact :=
    match l with
    | [] => []
    | i :: l =>
      match step H binary base h t s i with
      | None => []
      | Some (s', t') => match i with Op c => fact_of true h t c s s' | Nested c => fact_of false h t c s s' | _ => [] end ++ facts_items base h t' s' l
      end
    end.
  Fixpoint facts (s : state) (chain : list block) : list fact :=
    match chain with
    | [] => []
    | b :: chain =>
      facts_items (s_world s) (b_height b) (b_start b) s (b_items b) ++
      match steps H binary (s_world s) (b_height b) (b_start b) s (b_items b) with Some s' => facts s' chain | None => [] end
    end.
End FACTS.
(** what is reported about a trade *)
Record reports (e : entry) (g : fact) : Prop := mk_reports {
  rp_height : y_height e = g_height g; rp_offer : y_offer e = g_offer g; rp_bid : y_bid e = g_bid g; rp_ask : y_ask e = g_ask g;
  rp_gave : g_gave g <= y_bid_amount e; rp_got : g_got g <= y_ask_amount e;
  rp_exact : g_plain g = true -> y_bid_amount e = g_gave g /\ y_ask_amount e = g_got g }.
Definition wanted (bid ask : option addr) (since : N) (g : fact) : bool :=
  match bid with Some b => addr_eqb (g_bid g) b | None => true end && match ask with Some a => addr_eqb (g_ask g) a | None => true end && (since <=? g_height g).
(** the last ones first, at most [limit], or all if it is negative *)
Definition last_ones {A} (limit : Z) (l : list A) : list A := if (limit <? 0)%Z then rev l else firstn (Z.to_nat limit) (rev l).
(** amounts and prices fit 128 bits, and so does what the payment would buy at this price *)
Definition ordinary (g : fact) : Prop := g_had g < 2 ^ 128 /\ g_offered g < 2 ^ 128 /\ g_price g < 2 ^ 128 /\ g_offered g * g_price g < 2 ^ 192.
