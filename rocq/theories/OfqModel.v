(** What the node tells about offers and their trades: the tables that Node::apply writes for offers, and the queries that read them.
    /repo/src/Node.cpp:1164-1285, src/Node_api.cpp:647-675, 992-1170, src/offer_data_t.cpp, include/mmx/table.h:147-254.  The offers themselves: CtrModel.v. *)
Require Import List Arith NArith ZArith Bool.
From Verif Require Import BytesLib OrdLib EngineModel CtrModel HistModel.
Import List ListNotations.
Open Scope N_scope.

(** the string that stands for any currency *)
Definition ANY : bytes := [65; 78; 89].

(** A call of an offer.  Prices in arguments are numbers, of which the log keeps 128 bits. *)
Record call := mk_call { o_offer : addr; o_user : option addr; o_deposit : option (addr * N); o_version : N; o_method : Offer.method }.
(** What a block has for offers.  [Deploy]: an offer is deployed (its balances are empty; tokens sent to it before do not count).  [Op]: a call that is an operation of a
    transaction.  [Nested]: a call from another contract.  [Pay]: somebody sends tokens to an offer.  [Other]: deployment of something else, or an operation on something
    else.  Only transactions that did not fail are there (Node.cpp:1082). *)
Inductive item :=
| Deploy (id owner bid ask : addr) (price : N) (partner : option addr)
| Op (c : call) | Nested (c : call) | Pay (a cur : addr) (amount : N) | Other.
(** [b_start]: [counter] when the transactions are looked at (Node.cpp:1055-1081) *)
Record block := mk_block { b_height : N; b_start : N; b_items : list item }.

(** an offer: variables, balances, height of its deployment (tx_index) *)
Record offer := mk_offer { f_vars : Offer.vars; f_bal : addr -> N; f_height : N }.
Definition world : Type := addr -> option offer.
Definition set_offer (w : world) (a : addr) (f : offer) : world := fun x => if addr_eqb x a then Some f else w x.
(** interface/trade_log_t.vni, without time stamp and transaction *)
Record trade := mk_trade { t_offer : addr; t_ask_amount : N; t_price : N }.
(** The tables: contract_log, only the rows of offers (whose keys begin with the address of their binary); offer_index; owner_map, only the rows of offers; trade_log, whose
    keys are pairs of height and number, written here as keys with an empty first part; trade_index. *)
Record state := mk_state {
  s_world : world; s_log : list (key * addr); s_index : list (key * addr); s_owned : list (key * addr); s_trades : list (key * trade); s_traded : list (key * unit) }.

Section TABLES.
  (** hash_t of a string; params->offer_binary *)
  Variable H : bytes -> addr.
  Variable binary : addr.

  (** Node.cpp:1181-1183, 1276-1278 *)
  Definition index3 {V} (ask bid : addr) (h t : N) (v : V) (l : list (key * V)) : list (key * V) :=
    aset key_cmp ((H (ask ++ bid), h), t) v (aset key_cmp ((H (ANY ++ bid), h), t) v (aset key_cmp ((H (ask ++ ANY), h), t) v l)).

  (** a call at a height, [None]: it throws *)
  Definition exec_call (h : N) (f : offer) (c : call) : option offer :=
    let e := mk_env (o_user c) h (o_deposit c) (o_offer c) (o_version c) in
    match Offer.exec (o_method c) e (begin e (f_vars f) (f_bal f)) with
    | Some (_, x) => Some (mk_offer (c_vars x) (c_bal x) (f_height f))
    | None => None
    end.
  (** Node.cpp:1263-1282, which offer is traded at what price *)
  Definition trade_price (m : Offer.method) : option N :=
    match m with Offer.Trade _ p | Offer.Accept _ p => Some p | _ => None end.
  (** Node.cpp:1275, [base]: what storage has, which is what it was before the block (Node.cpp:1113-1119); addr_t() if there is nothing *)
  Definition stored_bid (base : world) (a : addr) : addr := match base a with Some f => Offer.bid_currency (f_vars f) | None => native end.
  Definition note_trade (base : world) (h t : N) (c : call) (s : state) : state :=
    match trade_price (o_method c), o_deposit c with
    | Some p, Some (cur, amount) =>
      mk_state (s_world s) (s_log s) (s_index s) (s_owned s)
        (aset key_cmp (([], h), t) (mk_trade (o_offer c) amount (p mod 2 ^ 128)) (s_trades s))
        (index3 cur (stored_bid base (o_offer c)) h t tt (s_traded s))
    | _, _ => s
    end.
  Definition with_world (s : state) (w : world) : state := mk_state w (s_log s) (s_index s) (s_owned s) (s_trades s) (s_traded s).

  (** Node.cpp:1164-1285 for one item; the new state and [counter].  [None]: it cannot happen. *)
  Definition step (base : world) (h t : N) (s : state) (i : item) : option (state * N) :=
    match i with
    | Deploy id owner bid ask price partner =>
      match s_world s id, Offer.init owner bid ask price partner h with
      | None, Some v => Some (mk_state (set_offer (s_world s) id (mk_offer v (fun _ => 0) h))
          (aset key_cmp ((binary, h), t) id (s_log s)) (index3 ask bid h t id (s_index s)) (aset key_cmp ((owner, h), t) id (s_owned s)) (s_trades s) (s_traded s), t + 1)
      | _, _ => None
      end
    | Op c =>
      match s_world s (o_offer c) with
      | Some f => match exec_call h f c with
                  | Some f => Some (note_trade base h t c (with_world s (set_offer (s_world s) (o_offer c) f)), t + 1)
                  | None => None
                  end
      | None => None
      end
    | Nested c =>
      match s_world s (o_offer c) with
      | Some f => match exec_call h f c with Some f => Some (with_world s (set_offer (s_world s) (o_offer c) f), t) | None => None end
      | None => None
      end
    | Pay a cur amount =>
      match s_world s a with
      | Some f => Some (with_world s (set_offer (s_world s) a (mk_offer (f_vars f) (credit (f_bal f) cur amount) (f_height f))), t)
      | None => None
      end
    | Other => Some (s, t + 1)
    end.
  Fixpoint steps (base : world) (h t : N) (s : state) (l : list item) : option state :=
    match l with [] => Some s | i :: l => match step base h t s i with Some (s, t) => steps base h t s l | None => None end end.
  Fixpoint run (s : state) (l : list block) : option state :=
    match l with [] => Some s | b :: l => match steps (s_world s) (b_height b) (b_start b) s (b_items b) with Some s => run s l | None => None end end.
  Definition genesis : state := mk_state (fun _ => None) [] [] [] [] [].

  (** ** Offers *)
  (** interface/offer_data_t.vni, without time stamp and the price as a floating point number *)
  Record data := mk_data { d_address : addr; d_height : N; d_owner : addr; d_partner : option addr; d_bid : addr; d_ask : addr;
    d_bid_balance : N; d_ask_balance : N; d_price : N; d_last_update : N; d_ask_amount : N }.
  (** src/offer_data_t.cpp:28-35; [None]: an exception *)
  Definition get_ask_amount (bid price : N) : option N :=
    if price =? 0 then None else let x := (bid * 2 ^ 64 + price - 1) / price in if 2 ^ 128 <=? x then None else Some x.
  (** Node_api.cpp:992-1022; uint128(uint256_t) throws when the number does not fit (include/mmx/uint128.hpp:35-40) *)
  Definition get_offer (s : state) (a : addr) : option data :=
    match s_world s a with
    | None => None
    | Some f =>
      let v := f_vars f in
      if 2 ^ 128 <=? Offer.inv_price v then None
      else match get_ask_amount (f_bal f (Offer.bid_currency v)) (Offer.inv_price v) with
           | None => None
           | Some x => Some (mk_data a (f_height f) (Offer.owner v) (Offer.partner v) (Offer.bid_currency v) (Offer.ask_currency v)
               (f_bal f (Offer.bid_currency v)) (f_bal f (Offer.ask_currency v)) (Offer.inv_price v) (Offer.last_update v) x)
           end
    end.
  (** Node_api.cpp:1024-1033; only asked for offers that are there *)
  Definition get_offer_state (s : state) (a : addr) : N :=
    match s_world s a with
    | None => 0
    | Some f => if 0 <? f_bal f (Offer.bid_currency (f_vars f)) then 1 else if 0 <? f_bal f (Offer.ask_currency (f_vars f)) then 2 else 0
    end.
  (** src/offer_data_t.cpp:41-44 *)
  Definition is_scam (d : data) : bool := addr_eqb (d_bid d) (d_ask d) && (d_price d <? 2 ^ 64).
  (** Node_api.cpp:1035-1048 *)
  Fixpoint fetch_offers (s : state) (state_ closed : bool) (l : list addr) : option (list data) :=
    match l with
    | [] => Some []
    | a :: l =>
      if negb state_ || (get_offer_state s a =? 1) || (closed && (get_offer_state s a =? 2)) then
        match get_offer s a with
        | None => None
        | Some d => match fetch_offers s state_ closed l with
                    | None => None
                    | Some r => Some (if match d_partner d with None => true | Some _ => false end && negb (is_scam d) then d :: r else r)
                    end
        end
      else fetch_offers s state_ closed l
    end.
  (** include/mmx/table.h:147-203 *)
  Definition first_range {V} (lo hi : key) (log : list (key * V)) : list (key * V) :=
    take_while (fun r => key_ltb (fst r) hi) (filter (fun r => negb (key_ltb (fst r) lo)) log).
  Definition top : N := 2 ^ 32 - 1.
  (** Node_api.cpp:1050-1055 *)
  Definition get_offers (s : state) (since : N) (state_ : bool) : option (list data) :=
    fetch_offers s state_ false (map snd (first_range ((binary, since), 0) ((binary, top), top) (s_log s))).
  (** Node_api.cpp:1057-1060, 662-675 *)
  Definition get_offers_by (s : state) (owners : list addr) (state_ : bool) : option (list data) :=
    fetch_offers s state_ true (flat_map (fun o => map snd (first_range ((o, 0), 0) ((o, top), top) (s_owned s))) owners).

  (** size_t(limit), at most n elements *)
  Definition size (z : Z) : N := Z.to_N (z mod 2 ^ 64)%Z.
  Definition take {A} (n : N) (l : list A) : list A := firstn (N.to_nat (N.min n (N.of_nat (List.length l)))) l.
  Inductive outcome := Done (l : list data) | Throws | NoFuel.
  (** Node_api.cpp:1068-1082, 1100-1116: the loop, which reads [chunk] rows below [at_] and keeps those that [keep] admits, until there are [limit].
      [fuel]: number of rounds. *)
  Fixpoint collect (fuel : nat) (s : state) (tbl : list (key * addr)) (state_ : bool) (keep : data -> bool) (limit chunk : N) (lo at_ : key) (res : list data) : outcome :=
    if limit <=? N.of_nat (List.length res) then Done res
    else match take chunk (last_range lo at_ tbl) with
         | [] => Done res
         | rows =>
           match fetch_offers s state_ false (map snd rows) with
           | None => Throws
           | Some l => match fuel with
                       | O => NoFuel
                       | S f => collect f s tbl state_ keep limit chunk lo (last (map fst rows) at_) (res ++ filter keep l)
                       end
           end
         end.
  (** Node_api.cpp:1062-1085 *)
  Definition get_recent_offers (s : state) (limit : Z) (state_ : bool) : outcome :=
    match collect (S (List.length (s_log s))) s (s_log s) state_ (fun _ => true) (size limit) (N.max (size limit) 100) ((binary, 0), 0) ((binary, top), top) [] with
    | Done l => Done (take (size limit) l)
    | x => x
    end.
  (** Node_api.cpp:1118-1121 *)
  Definition newer (x y : data) : bool := (d_height y <? d_height x) || ((d_height x =? d_height y) && match bytescmp (d_address x) (d_address y) with Gt => true | _ => false end).
  Fixpoint put (x : data) (l : list data) : list data := match l with [] => [x] | y :: l => if newer x y then x :: y :: l else y :: put x l end.
  Definition sort (l : list data) : list data := fold_right put [] l.
  (** what is looked for, Node_api.cpp:1094-1101, 1155-1162 *)
  Definition search_key (bid ask : option addr) : option addr :=
    match bid, ask with
    | Some b, Some a => Some (H (a ++ b))
    | Some b, None => Some (H (ANY ++ b))
    | None, Some a => Some (H (a ++ ANY))
    | None, None => None
    end.
  (** Node_api.cpp:1087-1124 *)
  Definition get_recent_offers_for (s : state) (bid ask : option addr) (min_bid : N) (limit : Z) (state_ : bool) : outcome :=
    match match search_key bid ask with
          | None => get_recent_offers s limit state_
          | Some k => collect (S (List.length (s_index s))) s (s_index s) state_ (fun d => min_bid <=? d_bid_balance d) (size limit) (size limit) ((k, 0), 0) ((k, top), top) []
          end with
    | Done l => Done (take (size limit) (sort l))
    | x => x
    end.

  (** ** Trades *)
  (** interface/trade_entry_t.vni, without time stamp, transaction and the price as a floating point number *)
  Record entry := mk_entry { y_height : N; y_offer : addr; y_ask_amount : N; y_bid_amount : N; y_bid : addr; y_ask : addr }.
  (** Node_api.cpp:1126-1138, src/offer_data_t.cpp:19-26 *)
  Definition make_entry (s : state) (h : N) (t : trade) : option entry :=
    let x := t_ask_amount t * t_price t / 2 ^ 64 in
    if 2 ^ 128 <=? x then None
    else let (b, a) := match s_world s (t_offer t) with Some f => (Offer.bid_currency (f_vars f), Offer.ask_currency (f_vars f)) | None => (native, native) end in
         Some (mk_entry h (t_offer t) (t_ask_amount t) x b a).
  Fixpoint make_entries (s : state) (l : list (N * trade)) : option (list entry) :=
    match l with
    | [] => Some []
    | (h, t) :: l => match make_entry s h t, make_entries s l with Some e, Some r => Some (e :: r) | _, _ => None end
    end.
  (** Node_api.cpp:1140-1150 *)
  Definition get_trade_history (s : state) (limit : Z) (since : N) : option (list entry) :=
    make_entries s (map (fun r => (k_height (fst r), snd r)) (take (size limit) (last_range (([], since), 0) (([], top), top) (s_trades s)))).
  (** Node_api.cpp:1152-1179 *)
  Definition get_trade_history_for (s : state) (bid ask : option addr) (limit : Z) (since : N) : option (list entry) :=
    match search_key bid ask with
    | None => get_trade_history s limit since
    | Some k =>
      make_entries s (flat_map (fun r => match aget key_cmp (([], k_height (fst r)), snd (fst r)) (s_trades s) with Some t => [(k_height (fst r), t)] | None => [] end)
        (take (size limit) (last_range ((k, since), 0) ((k, top), top) (s_traded s))))
    end.
End TABLES.
