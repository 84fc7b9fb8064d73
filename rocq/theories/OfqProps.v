(** C103, C104: what the node tells about offers and about their trades *)
Require Import List Arith NArith ZArith Bool Lia Sorted.
From Verif Require Import BytesLib OrdLib EngineModel CtrModel HistModel OfqModel OfqSpec OfqProofs.
Import List ListNotations.
Open Scope N_scope.

(** ** C103.  Queries of offers show the offers that are there, as they are: the newest ones first, all that fit or as many as asked for. *)
Theorem C103_recent_offers H binary chain s limit open :
  formed chain -> run H binary genesis chain = Some s -> presentable s -> OfqSpec.limit_ok limit ->
  exists l, get_recent_offers binary s limit open = Done l /\ newest limit (asked_for chain s None None 0 open) l.
Proof. intros FM R PR LO. destruct (recent_ok H binary chain s FM R PR limit open LO) as (l & E & NW & _). eauto. Qed.
Theorem C103_recent_offers_for_partial H binary chain s bid ask min_bid limit open :
  formed chain -> run H binary genesis chain = Some s -> presentable s -> OfqSpec.limit_ok limit ->
  clear H (currencies chain) bid ask -> (bid <> None \/ ask <> None \/ min_bid = 0) ->
  exists l, get_recent_offers_for H binary s bid ask min_bid limit open = Done l /\ newest limit (asked_for chain s bid ask min_bid open) l.
Proof. intros FM R PR LO CL SO. now apply recent_for_ok. Qed.
Theorem C103_offers_since H binary chain s since open :
  formed chain -> run H binary genesis chain = Some s -> presentable s ->
  exists l, get_offers binary s since open = Some l /\ forall d, In d l <-> asked_for chain s None None 0 open d /\ since <= d_height d.
Proof. intros FM R PR. now apply (offers_ok H binary chain s). Qed.
Theorem C103_offers_by H binary chain s owners open :
  formed chain -> run H binary genesis chain = Some s -> presentable s ->
  exists l, get_offers_by s owners open = Some l /\
    forall d, In d l <-> (exists p, In p (posted_in chain) /\ p_id p = d_address d) /\ describes s d /\ d_partner d = None /\ In (d_owner d) owners /\
                         (open = true -> 0 < d_bid_balance d \/ 0 < d_ask_balance d).
Proof. intros FM R PR. now apply (offers_by_ok H binary chain s). Qed.

(** ** C104.  The history of trades is that of the trades that happened, with the amounts that changed hands. *)
Theorem C104_trade_history_partial H binary chain s limit since :
  formed chain -> run H binary genesis chain = Some s -> OfqSpec.limit_ok limit ->
  (forall g, In g (facts H binary genesis chain) -> g_direct g = true -> ordinary g) ->
  exists es, get_trade_history s limit since = Some es /\ Forall2 reports es (last_ones limit (filter (OfqSpec.wanted None None since) (filter g_direct (facts H binary genesis chain)))).
Proof. intros FM R LO ORD. now apply (history_ok H binary chain s). Qed.
Theorem C104_trade_history_for_partial H binary chain s bid ask limit since :
  formed chain -> run H binary genesis chain = Some s -> OfqSpec.limit_ok limit ->
  let trades := filter g_direct (facts H binary genesis chain) in
  (forall g, In g trades -> ordinary g /\ g_deployed g < g_height g /\ List.length (g_bid g) = 32%nat /\ List.length (g_ask g) = 32%nat) ->
  clear H (map (fun g => (g_ask g, g_bid g)) trades) bid ask ->
  exists es, get_trade_history_for H s bid ask limit since = Some es /\ Forall2 reports es (last_ones limit (filter (OfqSpec.wanted bid ask since) trades)).
Proof.
  intros FM R LO trades ORD CL. apply (history_for_ok H binary chain s); auto.
  - intros g G1 G2. apply ORD. apply filter_In. auto.
  - intros g G. now apply ORD.
Qed.

Print Assumptions C103_recent_offers.
Print Assumptions C103_recent_offers_for_partial.
Print Assumptions C103_offers_since.
Print Assumptions C103_offers_by.
Print Assumptions C104_trade_history_partial.
Print Assumptions C104_trade_history_for_partial.

(** ** Cases *)
Definition cur (n : N) : addr := repeat n 32.
Definition bin : addr := cur 200.
Definition ident (x : bytes) : addr := x.
Definition one : N := 2 ^ 64.
(** two offers, a trade and an acceptance; a third offer for one partner only *)
Definition the_chain : list block :=
  [mk_block 10 5 [Deploy (cur 1) (cur 7) (cur 11) (cur 12) (2 * one) None; Other; Pay (cur 1) (cur 11) 1000; Deploy (cur 2) (cur 7) (cur 12) (cur 11) one None];
   mk_block 12 0 [Pay (cur 2) (cur 12) 300; Op (mk_call (cur 1) (Some (cur 9)) (Some (cur 12, 100)) 1 (Offer.Trade (cur 9) (2 * one)))];
   mk_block 13 7 [Deploy (cur 3) (cur 8) (cur 11) (cur 12) one (Some (cur 9)); Op (mk_call (cur 2) (Some (cur 9)) (Some (cur 11, 500)) 1 (Offer.Accept (cur 9) one))]].
Definition result := run ident bin genesis the_chain.
Definition the_state : state := match result with Some s => s | None => genesis end.
Lemma the_run : run ident bin genesis the_chain = Some the_state.
Proof. unfold the_state, result. destruct (run ident bin genesis the_chain) eqn:E; auto. exfalso. revert E. vm_compute. discriminate. Qed.
Lemma the_formed : formed the_chain.
Proof.
  constructor.
  - repeat constructor.
  - intros b [<-|[<-|[<-|[]]]]; vm_compute; auto.
  - intros b id owner bid ask price partner [<-|[<-|[<-|[]]]]; cbn [b_items In]; intros I; repeat destruct I as [I|I]; match type of I with False => destruct I | Deploy _ _ _ _ _ _ = _ => injection I as <- <- <- <- <- <-; auto | _ => discriminate end.
  - vm_compute. reflexivity.
Qed.
Lemma the_world a f : s_world the_state a = Some f -> a = cur 1 \/ a = cur 2 \/ a = cur 3.
Proof.
  destruct (whole_inv ident bin the_chain the_state the_formed the_run) as (base & h & t & V). intros W. destruct (i_world _ _ _ _ _ _ _ _ V _ _ W) as ((p & P & <- & _) & _).
  cbn in P. destruct P as [<-|[<-|[<-|[]]]]; auto.
Qed.
Lemma the_presentable : presentable the_state.
Proof. intros a f W. destruct (the_world _ _ W) as [->|[->| ->]]; vm_compute in W; injection W as <-; vm_compute; split; reflexivity || discriminate. Qed.
Lemma all_list {A} (P : A -> Prop) l : Forall P l -> forall x, In x l -> P x.
Proof. intros F. now apply Forall_forall. Qed.
Lemma the_clear : clear ident (currencies the_chain) (Some (cur 11)) None.
Proof.
  constructor.
  - intros a b x _ _ E. exact E.
  - intros b [= <-]. split; auto. intros m E. apply (f_equal (@rev N)) in E. rewrite rev_app_distr in E. vm_compute in E. discriminate.
  - discriminate.
Qed.
Definition addresses (o : outcome) : option (list (addr * N * N)) := match o with Done l => Some (map (fun d => (d_address d, d_bid_balance d, d_ask_amount d)) l) | _ => None end.
Example C103_case :
  addresses (get_recent_offers bin the_state 5 true) = Some [(cur 1, 800, 400)] /\
  addresses (get_recent_offers bin the_state (-1) false) = Some [(cur 2, 0, 0); (cur 1, 800, 400)] /\
  addresses (get_recent_offers_for ident bin the_state (Some (cur 11)) None 800 5 true) = Some [(cur 1, 800, 400)] /\
  option_map (map d_address) (get_offers bin the_state 10 true) = Some [cur 1] /\
  option_map (map d_address) (get_offers_by the_state [cur 7] true) = Some [cur 1; cur 2] /\
  (exists l, get_recent_offers_for ident bin the_state (Some (cur 11)) None 800 5 true = Done l /\ newest 5 (asked_for the_chain the_state (Some (cur 11)) None 800 true) l).
Proof.
  split; [vm_compute; reflexivity|]. split; [vm_compute; reflexivity|]. split; [vm_compute; reflexivity|]. split; [vm_compute; reflexivity|]. split; [vm_compute; reflexivity|].
  apply C103_recent_offers_for_partial; [apply the_formed|apply the_run|apply the_presentable|split; vm_compute; discriminate || reflexivity|apply the_clear|left; discriminate].
Qed.
Definition trades_of (o : option (list entry)) := option_map (map (fun e => (y_height e, y_offer e, y_ask_amount e, y_bid_amount e))) o.
Lemma the_trades : Forall (fun g => ordinary g /\ g_deployed g < g_height g /\ List.length (g_bid g) = 32%nat /\ List.length (g_ask g) = 32%nat) (filter g_direct (facts ident bin genesis the_chain)).
Proof.
  assert (B : forallb (fun g => (g_had g <? 2 ^ 128) && (g_offered g <? 2 ^ 128) && (g_price g <? 2 ^ 128) && (g_offered g * g_price g <? 2 ^ 192) && (g_deployed g <? g_height g) &&
      Nat.eqb (List.length (g_bid g)) 32 && Nat.eqb (List.length (g_ask g)) 32) (filter g_direct (facts ident bin genesis the_chain)) = true) by (vm_compute; reflexivity).
  apply Forall_forall. intros g G. rewrite forallb_forall in B. apply B in G. rewrite !Bool.andb_true_iff, !N.ltb_lt, !Nat.eqb_eq in G. unfold ordinary. tauto.
Qed.
Example C104_case :
  trades_of (get_trade_history the_state 5 0) = Some [(13, cur 2, 500, 500); (12, cur 1, 100, 200)] /\
  trades_of (get_trade_history_for ident the_state (Some (cur 11)) None (-1) 12) = Some [(12, cur 1, 100, 200)] /\
  (exists es, get_trade_history_for ident the_state (Some (cur 11)) None (-1) 12 = Some es /\
     Forall2 reports es (last_ones (-1) (filter (OfqSpec.wanted (Some (cur 11)) None 12) (filter g_direct (facts ident bin genesis the_chain))))).
Proof.
  split; [vm_compute; reflexivity|]. split; [vm_compute; reflexivity|]. apply (C104_trade_history_for_partial ident bin the_chain the_state).
  - apply the_formed.
  - apply the_run.
  - split; vm_compute; discriminate || reflexivity.
  - apply all_list. apply the_trades.
  - constructor.
    + intros a b x _ _ E. exact E.
    + intros b [= <-]. split; auto. intros m E. apply (f_equal (@rev N)) in E. rewrite rev_app_distr in E. vm_compute in E. discriminate.
    + discriminate.
Qed.

(** ** What is not so *)
(** An address may begin or end with the mark.  Whatever the hash: who looks for offers that ask for one currency is shown an offer that asks for another one. *)
Definition middle : bytes := repeat 5 29.
Definition mark_chain : list block := [mk_block 10 0 [Deploy (cur 1) (cur 7) (middle ++ ANY) (cur 12) one None; Pay (cur 1) (middle ++ ANY) 9]].
Definition listed (o : outcome) (a : addr) : Prop := match o with Done l => In a (map d_address l) | _ => False end.
Lemma key_refl k : key_cmp k k = Eq. Proof. exact (cmp_refl HistProofs.KT k). Qed.
Theorem C103_mark_refuted : forall H binary, exists s, formed mark_chain /\ run H binary genesis mark_chain = Some s /\
  exists d, get_offer s (cur 1) = Some d /\ d_ask d = cur 12 /\ cur 12 <> ANY ++ middle /\ listed (get_recent_offers_for H binary s None (Some (ANY ++ middle)) 0 5 true) (cur 1).
Proof.
  intros H binary. eexists. split.
  { constructor.
    - repeat constructor.
    - intros b [<-|[]]; vm_compute; auto.
    - intros b id owner bid ask price partner [<-|[]]; cbn [b_items In]; intros I; repeat destruct I as [I|I]; match type of I with False => destruct I | Deploy _ _ _ _ _ _ = _ => injection I as <- <- <- <- <- <-; auto | _ => discriminate end.
    - vm_compute. reflexivity. }
  split; [reflexivity|]. eexists. split; [vm_compute; reflexivity|]. split; [reflexivity|]. split; [discriminate|].
  match goal with |- listed (get_recent_offers_for _ _ ?s _ _ _ _ _) _ => set (st := s) end.
  assert (PR : presentable st).
  { intros a f W. unfold st in W. cbn [s_world with_world] in W. unfold set_offer in W. destruct (addr_eqb a (cur 1)); [|discriminate]. injection W as <-. vm_compute. split; reflexivity || discriminate. }
  assert (FM : formed mark_chain).
  { constructor.
    - repeat constructor.
    - intros b [<-|[]]; vm_compute; auto.
    - intros b id owner bid ask price partner [<-|[]]; cbn [b_items In]; intros I; repeat destruct I as [I|I]; match type of I with False => destruct I | Deploy _ _ _ _ _ _ = _ => injection I as <- <- <- <- <- <-; auto | _ => discriminate end.
    - vm_compute. reflexivity. }
  destruct (whole_inv H binary mark_chain st FM eq_refl) as (base & h & t & V). pose proof (i_index _ _ _ _ _ _ _ _ V) as TB.
  assert (LO : OfqSpec.limit_ok 5) by (split; vm_compute; discriminate || reflexivity).
  destruct (loop_ok H binary mark_chain st FM eq_refl PR _ _ (H ((ANY ++ middle) ++ ANY)) TB true (fun d => 0 <=? d_bid_balance d) 5 (size 5) LO (N.le_refl _)) as (l & E & NW).
  unfold get_recent_offers_for, search_key. rewrite E. cbn [listed]. specialize (NW _ (or_intror (or_introl eq_refl))). destruct NW as [_ N2 N3 N4 N5].
  assert (FIT : exists d, fits mark_chain st (fun p => marked H (p_bid p) (p_ask p)) (H ((ANY ++ middle) ++ ANY)) true (fun d => 0 <=? d_bid_balance d) d /\ d_address d = cur 1).
  { eexists. split; [|shelve]. exists (mk_posted 10 0 (cur 1) (cur 7) (middle ++ ANY) (cur 12)). split; [now left|]. split; [right; left; reflexivity|]. split; [vm_compute; reflexivity|]. split; reflexivity. Unshelve. reflexivity. }
  destruct FIT as (d & FIT & <-). destruct (N5 _ FIT) as [I|(_ & LEN & _)]; [now apply in_map|]. exfalso.
  assert (K : forall x, In x (map d_address (take (size 5) (sort l))) -> In x [cur 1]).
  { intros x X. apply in_map_iff in X as (e & <- & X). apply N3 in X as (p & P & _ & G & _). destruct P as [<-|[]]. vm_compute in G. injection G as <-. now left. }
  apply (NoDup_incl_length N2) in K. rewrite map_length in K. cbn [List.length] in K. lia.
Qed.
(** [min_bid] is ignored when no currency is given. *)
Theorem C103_min_bid_refuted : exists s, run ident bin genesis the_chain = Some s /\ formed the_chain /\ addresses (get_recent_offers_for ident bin s None None 1000000 5 true) = Some [(cur 1, 800, 400)].
Proof. exists the_state. split; [apply the_run|]. split; [apply the_formed|]. vm_compute. reflexivity. Qed.
(** One offer that nobody would want keeps the node from showing any: its price or what would buy all of it does not fit 128 bits. *)
Definition one_more (price amount : N) : list block := the_chain ++ [mk_block 20 0 [Deploy (cur 4) (cur 8) (cur 13) (cur 12) price None; Pay (cur 4) (cur 13) amount]].
Theorem C103_one_offer_blocks_refuted : forall price amount, (price = 1 /\ amount = 2 ^ 64) \/ (price = 2 ^ 128 /\ amount = 1) ->
  exists s, run ident bin genesis (one_more price amount) = Some s /\
    get_recent_offers bin s 5 true = Throws /\ get_recent_offers_for ident bin s None (Some (cur 12)) 0 5 true = Throws /\ get_offers bin s 0 true = None.
Proof.
  intros price amount [(-> & ->)|(-> & ->)]; (destruct (run ident bin genesis (one_more _ _)) as [s|] eqn:E; [|exfalso; revert E; vm_compute; discriminate]).
  all: exists s; split; auto; assert (Q : option_map (fun s => (get_recent_offers bin s 5 true, get_recent_offers_for ident bin s None (Some (cur 12)) 0 5 true, get_offers bin s 0 true)) (Some s) = Some (Throws, Throws, None)) by (rewrite <- E; vm_compute; reflexivity);
    cbn [option_map] in Q; injection Q as Q1 Q2 Q3; auto.
Qed.
(** Accepting with more than is needed is reported as if all of it had been traded. *)
Theorem C104_accept_refuted : exists s, run ident bin genesis the_chain = Some s /\ exists g, In g (facts ident bin genesis the_chain) /\ g_height g = 13 /\ g_gave g = 300 /\ g_got g = 300 /\
  trades_of (get_trade_history s 1 0) = Some [(13, cur 2, 500, 500)].
Proof.
  exists the_state. split; [apply the_run|]. assert (Q : exists l g, facts ident bin genesis the_chain = l ++ [g] /\ g_height g = 13 /\ g_gave g = 300 /\ g_got g = 300).
  { eexists [_], _. vm_compute. auto. }
  destruct Q as (l & g & -> & G1 & G2 & G3). exists g. split; [apply in_app_iff; right; now left|]. repeat (split; [assumption|]). vm_compute. reflexivity.
Qed.
(** A trade that another contract makes is not in the history. *)
Definition nested_chain : list block := firstn 1 the_chain ++ [mk_block 12 0 [Nested (mk_call (cur 1) (Some (cur 50)) (Some (cur 12, 100)) 1 (Offer.Trade (cur 9) (2 * one)))]].
Theorem C104_nested_refuted : exists s, run ident bin genesis nested_chain = Some s /\ (exists g, In g (facts ident bin genesis nested_chain) /\ g_gave g = 200) /\ get_trade_history s (-1) 0 = Some [].
Proof.
  destruct (run ident bin genesis nested_chain) as [s|] eqn:E; [|exfalso; revert E; vm_compute; discriminate]. exists s. split; auto. split.
  - assert (Q : exists g, facts ident bin genesis nested_chain = [g] /\ g_gave g = 200) by (eexists; vm_compute; auto). destruct Q as (g & -> & G). exists g. split; auto. now left.
  - assert (Q : option_map (fun s => get_trade_history s (-1) 0) (Some s) = Some (Some [])) by (rewrite <- E; vm_compute; reflexivity). now injection Q.
Qed.
(** A trade with an offer of the same block is not found by the currency that was bought, but under the native one. *)
Definition same_chain : list block :=
  [mk_block 10 5 [Deploy (cur 1) (cur 7) (cur 11) (cur 12) (2 * one) None; Pay (cur 1) (cur 11) 1000; Op (mk_call (cur 1) (Some (cur 9)) (Some (cur 12, 100)) 1 (Offer.Trade (cur 9) (2 * one)))]].
Theorem C104_same_block_refuted : exists s, run ident bin genesis same_chain = Some s /\
  get_trade_history_for ident s (Some (cur 11)) None (-1) 0 = Some [] /\ trades_of (get_trade_history_for ident s (Some native) None (-1) 0) = Some [(10, cur 1, 100, 200)].
Proof.
  destruct (run ident bin genesis same_chain) as [s|] eqn:E; [|exfalso; revert E; vm_compute; discriminate]. exists s. split; auto.
  assert (Q : option_map (fun s => (get_trade_history_for ident s (Some (cur 11)) None (-1) 0, trades_of (get_trade_history_for ident s (Some native) None (-1) 0))) (Some s) = Some (Some [], Some [(10, cur 1, 100, 200)])) by (rewrite <- E; vm_compute; reflexivity).
  cbn [option_map] in Q. injection Q as Q1 Q2. auto.
Qed.
(** One acceptance with a large payment, which gets it back, keeps the node from showing the history. *)
Definition large_chain : list block :=
  [mk_block 10 5 [Deploy (cur 1) (cur 7) (cur 11) (cur 12) (2 ^ 127) None; Pay (cur 1) (cur 11) 1];
   mk_block 11 5 [Op (mk_call (cur 1) (Some (cur 9)) (Some (cur 12, 2 ^ 66)) 1 (Offer.Accept (cur 9) (2 ^ 127)))]].
Theorem C104_large_refuted : exists s, run ident bin genesis large_chain = Some s /\ get_trade_history s 5 0 = None /\ get_trade_history_for ident s (Some (cur 11)) None 5 0 = None.
Proof.
  destruct (run ident bin genesis large_chain) as [s|] eqn:E; [|exfalso; revert E; vm_compute; discriminate]. exists s. split; auto.
  assert (Q : option_map (fun s => (get_trade_history s 5 0, get_trade_history_for ident s (Some (cur 11)) None 5 0)) (Some s) = Some (None, None)) by (rewrite <- E; vm_compute; reflexivity).
  cbn [option_map] in Q. injection Q as Q1 Q2. auto.
Qed.
Print Assumptions C103_mark_refuted.
Print Assumptions C103_min_bid_refuted.
Print Assumptions C103_one_offer_blocks_refuted.
Print Assumptions C104_accept_refuted.
Print Assumptions C104_nested_refuted.
Print Assumptions C104_same_block_refuted.
Print Assumptions C104_large_refuted.
