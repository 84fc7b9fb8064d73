(** C44: offers *)
Require Import List Arith NArith Bool Lia.
From Verif Require Import BytesLib EngineModel EngineUpper CtrModel CtrSpec CtrProofs.
Import ListNotations.
Open Scope N_scope.

(** The price is asked / bid: [inv_price] / 2^64 units are given for one unit that is paid.  An offer that was made: *)
Definition offer_ok (v : Offer.vars) : Prop := 0 < Offer.inv_price v < 2 ^ 256 /\ Offer.bid_currency v <> Offer.ask_currency v.

Lemma partner_ok e c x c' : Offer.check_partner e c = Some (x, c') -> c' = c /\ match Offer.partner (c_vars c) with Some p => e_user e = Some p | None => True end.
Proof.
  intros H. unfold Offer.check_partner in H. step H. simp H0. destruct (Offer.partner (c_vars c)) as [p|]; [now simp H|]. injection H as _ <-. auto.
Qed.
(** ** C44.  Trading gives the taker at most what the price says for what was paid in, and at most what the offer holds.  The taker has named the price. *)
Theorem C44_trade : forall v bal e dst price p m y, happens Offer.exec (v, bal) (Call e (Offer.Trade dst price)) p m y -> offer_ok v ->
  exists amount bid, e_deposit e = Some (Offer.ask_currency v, amount) /\ p = [mk_payment dst (Offer.bid_currency v) bid] /\ m = [] /\ fst y = v /\
    price = Offer.inv_price v /\ match Offer.partner v with Some q => e_user e = Some q | None => True end /\
    0 < bid <= bal (Offer.bid_currency v) /\
    bid * 2 ^ 64 <= amount * price /\ (amount * price < 2 ^ 256 -> amount * price < (bid + 1) * 2 ^ 64) /\
    snd y (Offer.bid_currency v) = bal (Offer.bid_currency v) - bid /\ snd y (Offer.ask_currency v) = bal (Offer.ask_currency v) + amount.
Proof.
  intros v bal e dst price p m y HP (PB & NE). inversion HP as [s b e' me c E|]; subst. cbn [Offer.exec] in E. step E. apply partner_ok in H as (-> & PT). cbn [begin c_vars] in PT.
  step E. simp H. cbn [begin c_vars] in *. step E. simp H. step E. simp H. step E. simp H0. match goal with D : e_deposit e = Some ?x |- _ => destruct x as (cur, amount) end. cbn [fst snd] in *.
  destruct (addr_eqb_spec cur (Offer.ask_currency v)) as [->|]; [|discriminate]. apply N.eqb_eq in E0. subst price. step E. match type of H0 with umul _ _ _ _ = Some (?d, _) => rename d into prod end. pose proof H0 as MU. apply umul_le in MU as (ML & _ & ->).
  step E. unfold ushr in H1. simp H1. unfold Offer.FRACT_BITS in *. step E. simp H1. apply N.ltb_lt in E0.
  assert (B64 : (2 ^ 64) <> 0) by discriminate.
  assert (LE : prod / 2 ^ 64 * 2 ^ 64 <= amount * Offer.inv_price v) by (pose proof (N.mul_div_le prod (2 ^ 64) B64); lia).
  apply send_inv in E as [(Z & _)|(_ & L & ->)]; [lia|]. exists amount, (prod / 2 ^ 64). unfold begin in L |- *. rewrite H in L |- *. cbn [c_bal c_sent c_vars c_minted rev app fst snd] in *. unfold credit in L |- *.
  destruct (addr_eqb_spec (Offer.bid_currency v) (Offer.ask_currency v)) as [|_]; [congruence|]. split; auto. split; auto. split; auto. split; auto. split; auto. split; auto. split; [lia|].
  split; auto. split; [|split].
  - intros B. apply umul_inv in H0 as (-> & _); auto. pose proof (N.mul_succ_div_gt (amount * Offer.inv_price v) (2 ^ 64) B64). lia.
  - now rewrite addr_eqb_refl.
  - destruct (addr_eqb_spec (Offer.ask_currency v) (Offer.bid_currency v)) as [|_]; [congruence|]. now rewrite addr_eqb_refl.
Qed.
Print Assumptions C44_trade.

(** ** Accepting takes what there is, pays for it as little as the price allows, and gives the rest of the payment back. *)
Theorem C44_accept : forall v bal e dst price p m y, happens Offer.exec (v, bal) (Call e (Offer.Accept dst price)) p m y -> offer_ok v ->
  (forall cur n, e_deposit e = Some (cur, n) -> n < 2 ^ 128) -> bal (Offer.bid_currency v) < 2 ^ 128 ->
  exists amount bid ask, e_deposit e = Some (Offer.ask_currency v, amount) /\ m = [] /\ fst y = v /\
    p = filter (fun q => 0 <? pm_amount q) [mk_payment dst (Offer.bid_currency v) bid; mk_payment dst (Offer.ask_currency v) (amount - ask)] /\
    price = Offer.inv_price v /\ match Offer.partner v with Some q => e_user e = Some q | None => True end /\
    0 < bid <= bal (Offer.bid_currency v) /\ ask <= amount /\
    bid * 2 ^ 64 <= ask * price /\ (ask - 1) * price < bid * 2 ^ 64 /\
    snd y (Offer.bid_currency v) = bal (Offer.bid_currency v) - bid /\ snd y (Offer.ask_currency v) = bal (Offer.ask_currency v) + ask.
Proof.
  intros v bal e dst price p m y HP (PB & NE) DB BB. inversion HP as [s b e' me c E|]; subst. cbn [Offer.exec] in E. step E. apply partner_ok in H as (-> & PT). cbn [begin c_vars] in PT.
  step E. simp H. cbn [begin c_vars] in *. step E. simp H. step E. simp H. step E. simp H0. match goal with D : e_deposit e = Some ?x |- _ => destruct x as (cur, amount) end. cbn [fst snd] in *.
  destruct (addr_eqb_spec cur (Offer.ask_currency v)) as [->|]; [|discriminate]. apply N.eqb_eq in E0. subst price. specialize (DB _ _ H).
  step E. match type of H0 with umul _ _ _ _ = Some (?d, _) => rename d into prod end. pose proof H0 as MU. apply umul_le in MU as (ML & _ & ->). clear H0.
  step E. unfold ushr in H0. simp H0. unfold Offer.FRACT_BITS in *. step E. simp H0.
  assert (BL : c_bal (begin e v bal) (Offer.bid_currency v) = bal (Offer.bid_currency v)).
  { unfold begin. rewrite H. cbn [c_bal]. unfold credit. destruct (addr_eqb_spec (Offer.bid_currency v) (Offer.ask_currency v)); congruence. }
  rewrite BL in E. set (bid := N.min (prod / 2 ^ 64) (bal (Offer.bid_currency v))) in *. cbv zeta in E. step E. simp H0. apply N.ltb_lt in E0.
  assert (BID : bid < 2 ^ 128) by (unfold bid; lia). assert (SMALL : bid * 2 ^ 64 < 2 ^ 256). { apply N.lt_trans with (2 ^ 128 * 2 ^ 64); [|reflexivity]. apply N.mul_lt_mono_pos_r; [reflexivity|exact BID]. }
  clearbody bid. step E. unfold ushl in H0. rewrite N.mod_small in H0 by exact SMALL. simp H0.
  step E. apply uadd_inv in H0 as (-> & SUM & ->); [|exact SMALL|tauto]. step E. apply usub_inv in H0 as (G1 & -> & ->); [|exact SUM|reflexivity]. step E. apply udiv_inv in H0 as (_ & -> & ->).
  set (ask := (bid * 2 ^ 64 + Offer.inv_price v - 1) / Offer.inv_price v) in *.
  assert (Q1 : bid * 2 ^ 64 <= ask * Offer.inv_price v).
  { unfold ask. pose proof (N.mul_succ_div_gt (bid * 2 ^ 64 + Offer.inv_price v - 1) (Offer.inv_price v) ltac:(lia)) as G. revert G. generalize ((bid * 2 ^ 64 + Offer.inv_price v - 1) / Offer.inv_price v) as d.
    generalize (bid * 2 ^ 64) as z. generalize (Offer.inv_price v) as w. intros w z d G. rewrite N.mul_succ_r in G. lia. }
  assert (Q2 : (ask - 1) * Offer.inv_price v < bid * 2 ^ 64).
  { unfold ask. pose proof (N.mul_div_le (bid * 2 ^ 64 + Offer.inv_price v - 1) (Offer.inv_price v) ltac:(lia)) as G. revert G. generalize ((bid * 2 ^ 64 + Offer.inv_price v - 1) / Offer.inv_price v) as d.
    assert (Z : 0 < bid * 2 ^ 64) by (apply N.mul_pos_pos; [exact E0|reflexivity]). revert Z G1. generalize (bid * 2 ^ 64) as z. destruct PB as (PB & _). revert PB. generalize (Offer.inv_price v) as w. intros w PB z Z _ d G.
    rewrite N.mul_sub_distr_r, N.mul_1_l. lia. }
  assert (ASKB : ask < 2 ^ 256).
  { unfold ask. eapply N.le_lt_trans; [apply N.div_le_upper_bound; [lia|]|exact SUM]. set (z := bid * 2 ^ 64 + Offer.inv_price v) in *. assert (1 * z <= Offer.inv_price v * z) by (apply N.mul_le_mono_r; lia). lia. }
  step E. apply usub_inv in H0 as (G2 & -> & ->); [|apply N.lt_trans with (2 ^ 128); [exact DB|reflexivity]|exact ASKB]. step E.
  exists amount, bid, ask. clearbody ask. split; [auto|]. unfold begin in H0. rewrite H in H0.
  apply send_inv in H0 as [(Z & _)|(_ & L & ->)]; [lia|]. cbn [c_bal c_vars c_sent c_minted] in *. unfold credit in L, E |- *.
  assert (F1 : addr_eqb (Offer.bid_currency v) (Offer.ask_currency v) = false) by (destruct (addr_eqb_spec (Offer.bid_currency v) (Offer.ask_currency v)); congruence).
  assert (F2 : addr_eqb (Offer.ask_currency v) (Offer.bid_currency v) = false) by (destruct (addr_eqb_spec (Offer.ask_currency v) (Offer.bid_currency v)); congruence).
  rewrite F1 in *. cbn [filter pm_amount]. destruct (N.ltb_spec 0 bid); [|lia].
  apply send_inv in E as [(Z & ->)|(Z & L2 & ->)]; cbn [c_bal c_vars c_sent c_minted rev app fst snd] in *; rewrite ?F1, ?F2, ?addr_eqb_refl in *.
  - rewrite Z. cbn [N.ltb N.compare]. cbn. split; auto. split; auto. split; auto. split; auto. split; auto. split; [lia|]. split; auto. split; auto. split; auto. split; auto. lia.
  - destruct (N.ltb_spec 0 (amount - ask)); [|lia]. cbn. split; auto. split; auto. split; auto. split; auto. split; auto. split; [lia|]. split; auto. split; auto. split; auto. split; auto. lia.
Qed.
Print Assumptions C44_accept.

Ltac conj := repeat (split; [solve [auto | congruence | intros; congruence]|]).
(** ** Anything else is for the owner only: calls that pay go to the owner; the price changes by the owner, not within 1080 blocks of the last change. *)
Theorem C44_owner_only : forall x e me p m y, happens Offer.exec x (Call e me) p m y -> e_height e < 2 ^ 256 -> Offer.last_update (fst x) < 2 ^ 256 ->
  m = [] /\ Offer.owner (fst y) = Offer.owner (fst x) /\ Offer.partner (fst y) = Offer.partner (fst x) /\
  Offer.bid_currency (fst y) = Offer.bid_currency (fst x) /\ Offer.ask_currency (fst y) = Offer.ask_currency (fst x) /\
  (fst y <> fst x -> e_user e = Some (Offer.owner (fst x)) /\ Offer.last_update (fst x) + 1080 <= e_height e /\ Offer.last_update (fst y) = e_height e /\ 0 < Offer.inv_price (fst y)) /\
  match me with
  | Offer.Trade _ _ | Offer.Accept _ _ => fst y = fst x
  | _ => e_user e = Some (Offer.owner (fst x)) /\ all_to (Offer.owner (fst x)) p
  end.
Proof.
  intros x e me p m y HP HB UB. inversion HP as [s b e' me' c E|]; subst. cbn [fst] in *.
  destruct me as [| | |n cu|pr|d pr|d pr]; cbn [Offer.exec] in E; unfold Offer.check_owner in E.
  - steps E. cbn. conj. constructor.
  - step E. steps H. step E. simp H. step E. simp H. cbn [begin c_vars] in *. apply send_inv in E as [(_ & ->)|(_ & _ & ->)]; cbn; conj; repeat constructor.
  - step E. steps H. step E. simp H. step E. simp H. cbn [begin c_vars] in *. apply send_inv in E as [(_ & ->)|(_ & _ & ->)]; cbn; conj; repeat constructor.
  - step E. steps H. step E. simp H. cbn [begin c_vars] in *. apply send_inv in E as [(_ & ->)|(_ & _ & ->)]; cbn; conj; repeat constructor.
  - step E. steps H. step E. simp H. step E. simp H. step E. cbn [begin c_vars] in *. apply usub_inv in H as (L & -> & ->); auto. step E. simp H. step E. simp H. apply N.leb_le in E0. apply N.ltb_lt in E1.
    unfold Offer.UPDATE_INTERVAL in *. destruct (pr =? Offer.inv_price s); simp E; cbn; conj.
    + constructor.
    + split; [intros _; split; [auto|]; split; [lia|]; auto|]. conj. constructor.
  - assert (V : c_vars c = s /\ c_minted c = []).
    { step E. apply partner_ok in H as (-> & _). step E. simp H. step E. simp H. step E. simp H. step E. simp H0. step E. apply umul_le in H0 as (_ & _ & ->). step E. unfold ushr in H0. simp H0. step E. simp H0.
      apply send_inv in E as [(_ & ->)|(_ & _ & ->)]; auto. }
    destruct V as (-> & ->). cbn. conj. auto.
  - assert (V : c_vars c = s /\ c_minted c = []).
    { step E. apply partner_ok in H as (-> & _). step E. simp H. step E. simp H. step E. simp H. step E. simp H0. step E. apply umul_le in H0 as (_ & _ & ->). step E. unfold ushr in H0. simp H0. step E. simp H0.
      cbv zeta in E. step E. simp H0. step E. unfold ushl in H0. simp H0. step E. apply uadd_same in H0. subst. step E. assert (c0 = begin e s b) by (unfold usub in H0; destruct (_ <? _); [discriminate|]; now injection H0 as _ <-). subst c0.
      step E. apply udiv_inv in H1 as (_ & _ & ->). step E. assert (c0 = begin e s b) by (unfold usub in H1; destruct (_ <? _); [discriminate|]; now injection H1 as _ <-). subst c0.
      step E. assert (V0 : c_vars c0 = s /\ c_minted c0 = []) by (apply send_inv in H2 as [(_ & ->)|(_ & _ & ->)]; auto). apply send_inv in E as [(_ & ->)|(_ & _ & ->)]; auto. }
    destruct V as (-> & ->). cbn. conj. auto.
Qed.
Print Assumptions C44_owner_only.
(** An offer stays as it should be, so that C44_trade and C44_accept always apply. *)
Theorem C44_offer_ok : forall x h l y k, history Offer.exec x h l y k -> k < 2 ^ 256 -> offer_ok (fst x) -> Offer.last_update (fst x) < 2 ^ 256 ->
  (forall e pr, In (Call e (Offer.SetPrice pr)) (map ev_of l) -> pr < 2 ^ 256) -> offer_ok (fst y).
Proof.
  intros x h l y k H. induction H as [x h|x h ev p m y l z h' k HP HH L H' IH]; intros KB OK UB PB; auto.
  assert (HM : h' <= k) by (clear - H'; induction H'; lia).
  assert (Q : offer_ok (fst y) /\ Offer.last_update (fst y) < 2 ^ 256).
  { destruct ev as [e me|]; [|inversion HP; subst; auto]. subst h'.
    destruct (C44_owner_only _ _ _ _ _ _ HP ltac:(lia) UB) as (_ & _ & _ & B1 & B2 & CH & _). destruct OK as (P & NE).
    inversion HP as [s b e' me' c E|]; subst. cbn [fst] in *. destruct me as [| | |n cu|pr|d pr|d pr]; cbn [Offer.exec] in E; unfold Offer.check_owner in E.
    5: { specialize (PB e pr (or_introl eq_refl)). step E. steps H. step E. simp H. step E. simp H. step E. cbn [begin c_vars] in *. apply usub_inv in H as (L' & -> & ->); auto; [|lia]. step E. simp H. step E. simp H.
         apply N.ltb_lt in E1. destruct (pr =? Offer.inv_price s); simp E; cbn; [split; [split; auto|auto]|]. split; [split; cbn; auto|lia]. }
    1: { steps E. split; [split; auto|auto]. }
    1-3: destruct (N.eq_dec 0 0); [|congruence]; step E; steps H; step E; simp H; cbn [begin c_vars] in *.
    1-2: step E; simp H.
    1-3: apply send_inv in E as [(_ & ->)|(_ & _ & ->)]; (split; [split; auto|auto]).
    all: destruct (C44_owner_only _ _ _ _ _ _ HP ltac:(lia) UB) as (_ & _ & _ & _ & _ & _ & EQ); cbn [fst] in EQ; rewrite EQ; split; [split; auto|auto]. }
  destruct Q as (Q1 & Q2). apply IH; auto. intros e pr I. eapply PB. cbn [map]. right. exact I.
Qed.
Print Assumptions C44_offer_ok.

(** ** An NFT for sale changes hands for exactly its price, which goes to the owner at once. *)
Theorem C44_nft_accept : forall v bal e dst pr p m y, happens NftOffer.exec (v, bal) (Call e (NftOffer.Accept dst pr)) p m y ->
  0 < NftOffer.price v -> NftOffer.nft v <> NftOffer.ask_currency v ->
  e_deposit e = Some (NftOffer.ask_currency v, NftOffer.price v) /\ pr = NftOffer.price v /\ m = [] /\ fst y = v /\
  p = [mk_payment (NftOffer.owner v) (NftOffer.ask_currency v) (NftOffer.price v); mk_payment dst (NftOffer.nft v) 1] /\
  1 <= bal (NftOffer.nft v) /\ match NftOffer.partner v with Some q => e_user e = Some q | None => True end.
Proof.
  intros v bal e dst pr p m y HP PB NE. inversion HP as [s b e' me c E|]; subst. cbn [NftOffer.exec] in E. step E.
  assert (PT : c0 = begin e v bal /\ match NftOffer.partner v with Some p => e_user e = Some p | None => True end).
  { unfold NftOffer.check_partner in H. step H. simp H0. cbn [begin c_vars] in *. destruct (NftOffer.partner v) as [q|]; [simp H; auto|]. injection H as _ <-. auto. }
  destruct PT as (-> & PT). clear H. step E. simp H. cbn [begin c_vars] in *. step E. simp H. step E. simp H. step E. simp H. step E. simp H. step E. simp H0. step E. simp H0. match goal with D : e_deposit e = Some ?x |- _ => destruct x as (cur, amount) end. cbn [fst snd] in *.
  apply N.eqb_eq in E0, E3. apply N.leb_le in E1. subst. destruct (addr_eqb_spec cur (NftOffer.ask_currency v)) as [->|]; [|discriminate]. unfold begin in E1, E. rewrite H in E1, E. cbn [c_bal] in *. unfold credit in E1.
  destruct (addr_eqb_spec (NftOffer.nft v) (NftOffer.ask_currency v)) as [|_]; [congruence|]. step E.
  apply send_inv in H0 as [(Z & _)|(_ & _ & ->)]; [lia|]. apply send_inv in E as [(Z & _)|(_ & _ & ->)]; [discriminate|]. cbn. auto 10.
Qed.
Print Assumptions C44_nft_accept.

(** ... and apart from that it is under the control of its owner alone. *)
Theorem C44_nft_owner_only : forall x e me p m y, happens NftOffer.exec x (Call e me) p m y -> e_height e < 2 ^ 256 -> NftOffer.last_update (fst x) < 2 ^ 256 ->
  (forall dst pr, me <> NftOffer.Accept dst pr) ->
  m = [] /\ e_user e = Some (NftOffer.owner (fst x)) /\ all_to (NftOffer.owner (fst x)) p /\
  NftOffer.owner (fst y) = NftOffer.owner (fst x) /\ NftOffer.partner (fst y) = NftOffer.partner (fst x) /\
  NftOffer.nft (fst y) = NftOffer.nft (fst x) /\ NftOffer.ask_currency (fst y) = NftOffer.ask_currency (fst x) /\
  (fst y <> fst x -> NftOffer.last_update (fst x) + 1080 <= e_height e /\ NftOffer.last_update (fst y) = e_height e /\ 0 < NftOffer.price (fst y)).
Proof.
  intros x e me p m y HP HB UB NA. inversion HP as [s b e' me' c E|]; subst. cbn [fst] in *.
  destruct me as [| |n cu|pr|d pr]; cbn [NftOffer.exec] in E; unfold NftOffer.check_owner in E; [| | | |destruct (NA d pr eq_refl)].
  - steps E. cbn. conj. split; [constructor|]. conj. congruence.
  - step E. steps H. step E. simp H. step E. simp H. cbn [begin c_vars] in *. apply send_inv in E as [(_ & ->)|(_ & _ & ->)]; cbn; conj; (split; [repeat constructor|]); conj; congruence.
  - step E. steps H. step E. simp H. cbn [begin c_vars] in *. apply send_inv in E as [(_ & ->)|(_ & _ & ->)]; cbn; conj; (split; [repeat constructor|]); conj; congruence.
  - step E. steps H. step E. simp H. step E. simp H. step E. cbn [begin c_vars] in *. apply usub_inv in H as (L & -> & ->); auto. step E. simp H. step E. simp H. apply N.leb_le in E0. apply N.ltb_lt in E1.
    destruct (pr =? NftOffer.price s); simp E; cbn; conj; (split; [constructor|]); conj; [congruence|]. intros _. split; [lia|]. auto.
Qed.
Print Assumptions C44_nft_owner_only.

(** ** Example: half a coin of [bid] per [ask]; 100 held.  Bob trades 21: gets 10.  Carol accepts with 300: gets the last 90 for 180, and 120 back. *)
Definition oA : addr := repeat 1 32. Definition oB : addr := repeat 2 32. Definition oC : addr := repeat 3 32. Definition bidc : addr := repeat 7 32. Definition askc : addr := repeat 8 32.
Definition oby (a : addr) (h : N) (d : option (addr * N)) : env := mk_env (Some a) h d (repeat 9 32) 1.
Definition half : N := 2 ^ 63.
Definition offer1 : Offer.vars := Offer.mk oA None bidc askc half 10.
Definition o_events : list (event Offer.method) :=
  [Receive bidc 100; Call (oby oB 20 (Some (askc, 21))) (Offer.Trade oB half); Call (oby oC 21 (Some (askc, 300))) (Offer.Accept oC half);
   Call (oby oA 22 None) Offer.Withdraw; Call (oby oA 1090 None) (Offer.SetPrice (2 * half))].
Example C44_case : Offer.init oA bidc askc half None 10 = Some offer1 /\ offer_ok offer1 /\
  exists l y k, history Offer.exec (offer1, fun _ => 0) 10 l y k /\
  map paid_by l = [[]; [mk_payment oB bidc 10]; [mk_payment oC bidc 90; mk_payment oC askc 120]; [mk_payment oA askc 201]; []] /\ Offer.inv_price (fst y) = 2 * half /\
  Offer.exec (Offer.SetPrice half) (oby oA 2169 None) (begin (oby oA 2169 None) (fst y) (snd y)) = None /\
  Offer.exec Offer.Withdraw (oby oB 2169 None) (begin (oby oB 2169 None) (fst y) (snd y)) = None.
Proof.
  split; [reflexivity|]. split; [split; [split; reflexivity|discriminate]|].
  destruct (replay Offer.exec (offer1, fun _ => 0) 10 o_events) as [((l, y), k)|] eqn:R; [|vm_compute in R; discriminate].
  exists l, y, k. split; [exact (replay_history _ _ _ _ _ _ _ R)|]. vm_compute in R. injection R as <- <- <-. vm_compute. repeat split.
Qed.
Example C44_nft_case : exists l y k, history NftOffer.exec (NftOffer.mk oA (Some oB) bidc askc 70 10, fun _ => 0) 10 l y k /\
  map paid_by l = [[]; [mk_payment oA askc 70; mk_payment oB bidc 1]].
Proof.
  destruct (replay NftOffer.exec (NftOffer.mk oA (Some oB) bidc askc 70 10, fun _ => 0) 10 [Receive bidc 1; Call (oby oB 20 (Some (askc, 70))) (NftOffer.Accept oB 70)]) as [((l, y), k)|] eqn:R; [|vm_compute in R; discriminate].
  exists l, y, k. split; [exact (replay_history _ _ _ _ _ _ _ R)|]. vm_compute in R. injection R as <- <- <-. vm_compute. repeat split.
Qed.
