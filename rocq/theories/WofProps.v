(** C110: offers that the wallet makes and accepts *)
Require Import List Arith NArith Bool Lia.
From Verif Require Import OfqModel BytesLib EngineModel EngineUpper CtrModel CtrSpec CtrProofs CtrProps OfferProps WofModel.
Import ListNotations.
Open Scope N_scope.

(** ** Specification *)
(** an offer of [bid] for [ask] was made by the wallet and deployed at [h] as [x] *)
Definition offered (owner : addr) (bid : N) (bc : addr) (ask : N) (ac : addr) (h : N) (x : Offer.vars * (addr -> N)) : Prop :=
  bid < 2 ^ 128 /\ ask < 2 ^ 128 /\ exists o, make_offer owner bid bc ask ac = Some o /\ deployed o h = Some x.
(** the owner has not changed the price *)
Definition same_price (l : list (entry Offer.method)) : Prop := forall en e pr, In en l -> ev_of en <> Call e (Offer.SetPrice pr).

Lemma offered_inv owner bid bc ask ac h x : offered owner bid bc ask ac h x ->
  fst x = Offer.mk owner None bc ac (bid * 2 ^ 64 / ask) h /\ snd x = credit (fun _ => 0) bc bid /\ 0 < bid < 2 ^ 128 /\ 0 < ask < 2 ^ 128 /\ 0 < bid * 2 ^ 64 / ask < 2 ^ 128 /\ bc <> ac.
Proof.
  intros (B1 & A1 & o & M & D). unfold make_offer in M. destruct (N.eqb_spec bid 0) as [|B0]; [discriminate|]. destruct (N.eqb_spec ask 0) as [|A0]; [discriminate|]. cbn [orb] in M. cbv zeta in M.
  set (inv := bid * 2 ^ 64 / ask) in *. destruct (N.eqb_spec (inv / 2 ^ 128) 0) as [E|]; [|discriminate]. clearbody inv. injection M as <-. unfold deployed in D. cbn [m_owner m_bid m_ask m_price m_deposit fst snd] in D. unfold Offer.init in D.
  apply N.div_small_iff in E; [|discriminate].
  destruct ((0 <? inv) && negb (addr_eqb bc ac)) eqn:Q; [|discriminate D]. injection D as <-. apply andb_prop in Q as (P & NE). apply N.ltb_lt in P. assert (NE' : bc <> ac) by (intros ->; now rewrite addr_eqb_refl in NE).
  cbn [fst snd]. split; auto. split; auto. split; [lia|]. split; [lia|]. split; [lia|auto].
Qed.
Lemma price_stays x h l y k : history Offer.exec x h l y k -> same_price l -> fst y = fst x.
Proof.
  induction 1 as [x h|x h ev p m y l z h' k HP HH L H IH]; intros SP; auto. rewrite IH by (intros en e pr IN; apply SP; right; exact IN). clear IH H.
  inversion HP as [s b e me c E|]; subst; auto. cbn [fst]. specialize (SP (Call e me, rev (c_sent c), rev (c_minted c)) e). destruct me as [| | |n cu|pr|d pr|d pr]; cbn [Offer.exec] in E; unfold Offer.check_owner in E.
  - steps E. reflexivity.
  - step E. steps H. step E. simp H. step E. simp H. apply send_inv in E as [(_ & ->)|(_ & _ & ->)]; auto.
  - step E. steps H. step E. simp H. step E. simp H. apply send_inv in E as [(_ & ->)|(_ & _ & ->)]; auto.
  - step E. steps H. step E. simp H. apply send_inv in E as [(_ & ->)|(_ & _ & ->)]; auto.
  - destruct (SP pr (or_introl eq_refl) eq_refl).
  - clear SP. step E. apply partner_ok in H as (-> & _). step E. simp H. step E. simp H. step E. simp H. step E. simp H0. step E. apply umul_le in H0 as (_ & _ & ->). step E. unfold ushr in H0. simp H0. step E. simp H0. apply send_inv in E as [(_ & ->)|(_ & _ & ->)]; auto.
  - clear SP. step E. apply partner_ok in H as (-> & _). step E. simp H. step E. simp H. step E. simp H. step E. simp H0. step E. apply umul_le in H0 as (_ & _ & ->). step E. unfold ushr in H0. simp H0. step E. simp H0.
      cbv zeta in E. step E. simp H0. step E. unfold ushl in H0. simp H0. step E. apply uadd_same in H0. subst. step E. assert (c0 = begin e s b) by (unfold usub in H0; destruct (_ <? _); [discriminate|]; now injection H0 as _ <-). subst c0.
      step E. apply udiv_inv in H1 as (_ & _ & ->). step E. assert (c0 = begin e s b) by (unfold usub in H1; destruct (_ <? _); [discriminate|]; now injection H1 as _ <-). subst c0.
      step E. assert (V0 : c_vars c0 = s) by (apply send_inv in H2 as [(_ & ->)|(_ & _ & ->)]; auto). apply send_inv in E as [(_ & ->)|(_ & _ & ->)]; auto.
Qed.
(** ** C110.  Whatever happened to an offer that the wallet made, as long as its owner did not change the price: nobody gets more for what they pay than [bid] for [ask]. *)
Theorem C110_price : forall owner bid bc ask ac h0 x h l v bal k e me p m y, offered owner bid bc ask ac h0 x -> history Offer.exec x h l (v, bal) k -> same_price l ->
  happens Offer.exec (v, bal) (Call e me) p m y -> (forall cur n, e_deposit e = Some (cur, n) -> n < 2 ^ 128) -> bal bc < 2 ^ 128 ->
  forall dst price, me = Offer.Trade dst price \/ me = Offer.Accept dst price ->
  exists amount got back, e_deposit e = Some (ac, amount) /\ 0 < got <= bal bc /\ back <= amount /\ got * ask <= (amount - back) * bid /\
    all_to dst p /\ total_paid bc p = got /\ total_paid ac p = back /\ snd y bc + got = bal bc /\ snd y ac + back = bal ac + amount.
Proof.
  intros owner bid bc ask ac h0 x h l v bal k e me p m y OF H SP HP DB BB dst price ME. apply offered_inv in OF as (FX & _ & B & A & I & NE). apply price_stays in H; auto. cbn [fst] in H. rewrite FX in H. subst v.
  assert (OK : offer_ok (Offer.mk owner None bc ac (bid * 2 ^ 64 / ask) h0)). { split; auto. cbn [Offer.inv_price]. split; [apply I|]. apply N.lt_trans with (2 ^ 128); [apply I|reflexivity]. }
  assert (LE : forall got paid, got * 2 ^ 64 <= paid * (bid * 2 ^ 64 / ask) -> got * ask <= paid * bid).
  { intros got paid L. pose proof (N.mul_div_le (bid * 2 ^ 64) ask ltac:(lia)) as Q. set (inv := bid * 2 ^ 64 / ask) in *. clearbody inv. apply (N.mul_le_mono_pos_r _ _ (2 ^ 64)); [reflexivity|].
    transitivity (paid * inv * ask); [replace (got * ask * 2 ^ 64) with (got * 2 ^ 64 * ask) by lia; now apply N.mul_le_mono_r|]. replace (paid * bid * 2 ^ 64) with (paid * (bid * 2 ^ 64)) by lia. rewrite <- N.mul_assoc. apply N.mul_le_mono_l. lia. }
  assert (F1 : addr_eqb bc ac = false) by (destruct (addr_eqb_spec bc ac); congruence). assert (F2 : addr_eqb ac bc = false) by (destruct (addr_eqb_spec ac bc); congruence).
  destruct ME as [-> | ->].
  - destruct (C44_trade _ _ _ _ _ _ _ _ HP OK) as (amount & got & D & -> & -> & _ & -> & _ & G & L1 & _ & S1 & S2). cbn [Offer.bid_currency Offer.ask_currency Offer.inv_price] in *.
    exists amount, got, 0. split; auto. split; auto. split; [lia|]. split; [rewrite N.sub_0_r; auto|]. unfold all_to, total_paid. cbn [fold_right pm_currency pm_amount pm_to]. rewrite addr_eqb_refl, ?F1, ?F2. split; [repeat constructor|]. lia.
  - destruct (C44_accept _ _ _ _ _ _ _ _ HP OK DB BB) as (amount & got & paid & D & -> & _ & -> & -> & _ & G & PA & L1 & _ & S1 & S2). cbn [Offer.bid_currency Offer.ask_currency Offer.inv_price] in *.
    exists amount, got, (amount - paid). split; auto. split; auto. split; [lia|]. split; [replace (amount - (amount - paid)) with paid by lia; auto|].
    unfold all_to, total_paid. cbn [filter pm_amount]. destruct (N.ltb_spec 0 got); [|lia]. destruct (N.ltb_spec 0 (amount - paid)); cbn [fold_right pm_currency pm_amount pm_to]; rewrite ?addr_eqb_refl, ?F1, ?F2; (split; [repeat constructor|]); lia.
Qed.
Print Assumptions C110_price.

Lemma ceil_spec z w : 0 < w -> z <= (z + w - 1) / w * w /\ (0 < z -> ((z + w - 1) / w - 1) * w < z).
Proof.
  intros W0. pose proof (N.mul_succ_div_gt (z + w - 1) w ltac:(lia)) as G1. pose proof (N.mul_div_le (z + w - 1) w ltac:(lia)) as G2. set (d := (z + w - 1) / w) in *. clearbody d. rewrite N.mul_succ_r in G1. rewrite (N.mul_comm w d) in *.
  split; [lia|]. intros Z0. rewrite N.mul_sub_distr_r, N.mul_1_l. lia.
Qed.
(** what the node tells is the least amount that pays for all that is left *)
Lemma told_inv v bal ac n : told (v, bal) = Some (ac, n) -> ac = Offer.ask_currency v /\ 0 < Offer.inv_price v < 2 ^ 128 /\ n < 2 ^ 128 /\ n = (bal (Offer.bid_currency v) * 2 ^ 64 + Offer.inv_price v - 1) / Offer.inv_price v /\
  bal (Offer.bid_currency v) * 2 ^ 64 <= n * Offer.inv_price v /\ (0 < bal (Offer.bid_currency v) -> (n - 1) * Offer.inv_price v < bal (Offer.bid_currency v) * 2 ^ 64).
Proof.
  unfold told, get_ask_amount. cbn [fst snd]. destruct (N.leb_spec (2 ^ 128) (Offer.inv_price v)) as [|IB]; [discriminate|]. destruct (N.eqb_spec (Offer.inv_price v) 0) as [|I0]; [discriminate|]. cbv zeta.
  destruct (ceil_spec (bal (Offer.bid_currency v) * 2 ^ 64) (Offer.inv_price v) ltac:(lia)) as (C1 & C2). set (z := bal (Offer.bid_currency v) * 2 ^ 64) in *. set (d := (z + Offer.inv_price v - 1) / Offer.inv_price v) in *.
  assert (Z : 0 < bal (Offer.bid_currency v) -> 0 < z) by (intros B0; apply N.mul_pos_pos; [exact B0|reflexivity]). destruct (N.leb_spec (2 ^ 128) d) as [|NB]; [discriminate|]. intros Q. assert (ac = Offer.ask_currency v /\ n = d) as (-> & ->) by (split; congruence). split; auto. split; [lia|]. split; auto.
Qed.
(** ** Accepting with the wallet buys all that is left for exactly what the node told; with less one gets less. *)
Theorem C110_accept : forall v bal dst me ac n e, offer_ok v -> Offer.partner v = None -> 0 < bal (Offer.bid_currency v) < 2 ^ 128 ->
  accept_offer (v, bal) dst (Offer.inv_price v) = Some (me, (ac, n)) -> e_deposit e = Some (ac, n) ->
  told (v, bal) = Some (ac, n) /\
  (exists y, happens Offer.exec (v, bal) (Call e me) [mk_payment dst (Offer.bid_currency v) (bal (Offer.bid_currency v))] [] y /\ snd y (Offer.bid_currency v) = 0 /\ snd y (Offer.ask_currency v) = bal (Offer.ask_currency v) + n) /\
  (forall e' me' p m y dst' price n', e_deposit e' = Some (ac, n') -> n' < n -> me' = Offer.Trade dst' price \/ me' = Offer.Accept dst' price -> happens Offer.exec (v, bal) (Call e' me') p m y ->
     0 < snd y (Offer.bid_currency v)).
Proof.
  intros v bal dst me ac n e OK PT BB AC D. unfold accept_offer in AC. destruct (told (v, bal)) as [(cur, n0)|] eqn:T; [|discriminate]. injection AC as <- -> ->. split; auto.
  apply told_inv in T as (-> & I & NB & EN & L1 & L2). specialize (L2 (proj1 BB)). pose proof OK as (_ & NE).
  set (b := bal (Offer.bid_currency v)) in *. set (w := Offer.inv_price v) in *. split.
  - assert (F1 : addr_eqb (Offer.bid_currency v) (Offer.ask_currency v) = false) by (destruct (addr_eqb_spec (Offer.bid_currency v) (Offer.ask_currency v)); congruence).
    assert (F2 : addr_eqb (Offer.ask_currency v) (Offer.bid_currency v) = false) by (destruct (addr_eqb_spec (Offer.ask_currency v) (Offer.bid_currency v)); congruence).
    assert (MB : n * w < 2 ^ 256). { apply N.lt_le_trans with (2 ^ 128 * 2 ^ 128); [|now compute]. apply N.mul_lt_mono; lia. }
    assert (BS : b * 2 ^ 64 < 2 ^ 192). { change (2 ^ 192) with (2 ^ 128 * 2 ^ 64). apply N.mul_lt_mono_pos_r; [reflexivity|lia]. }
    assert (SB : b * 2 ^ 64 + w < 2 ^ 256). { apply N.lt_le_trans with (2 ^ 192 + 2 ^ 128); [lia|now compute]. }
    assert (XB : b <= n * w / 2 ^ 64) by (apply N.div_le_lower_bound; [discriminate|]; lia).
    set (c := begin e v bal). assert (CB : c_bal c (Offer.bid_currency v) = b) by (unfold c, begin; rewrite D; cbn [c_bal]; unfold credit; now rewrite F1).
    set (c1 := mk_ctr v (fun x => if addr_eqb x (Offer.bid_currency v) then c_bal c (Offer.bid_currency v) - b else c_bal c x) [mk_payment dst (Offer.bid_currency v) b] (@nil (addr * N))).
    assert (E : Offer.exec (Offer.Accept dst w) e c = Some (tt, c1)).
    { assert (CV : c_vars c = v) by reflexivity. unfold Offer.exec, Offer.check_partner, bind, get, ret, assert, deposit, balance, ushr, ushl, ret. cbv zeta. rewrite CV, PT. fold w. rewrite N.eqb_refl, D. cbn [fst snd]. rewrite addr_eqb_refl.
      rewrite umul_ok by exact MB. unfold Offer.FRACT_BITS. change (c_vars c) with v. fold w. rewrite CB. rewrite N.min_r by exact XB. destruct (N.ltb_spec 0 b) as [_|]; [|lia].
      rewrite (N.mod_small (b * 2 ^ 64)) by (apply N.lt_trans with (2 ^ 192); [exact BS|reflexivity]). rewrite uadd_ok by exact SB. rewrite usub_ok by lia. unfold udiv. destruct (N.eqb_spec w 0) as [|_]; [lia|].
      rewrite <- EN. rewrite usub_ok; [|lia|apply N.lt_trans with (2 ^ 128); [exact NB|reflexivity]]. rewrite N.sub_diag. rewrite send_ok; [|lia|rewrite CB; lia]. unfold send. cbn [N.eqb]. reflexivity. }
    exists (v, c_bal c1). split; [|split].
    + exact (happens_call _ _ _ _ _ _ E).
    + cbn [snd c1 c_bal]. rewrite addr_eqb_refl, CB. lia.
    + cbn [snd c1 c_bal]. rewrite F2. unfold c, begin. rewrite D. cbn [c_bal]. unfold credit. now rewrite addr_eqb_refl.
  - intros e' me' p m y dst' price n' D' LT ME HP.
    assert (Q : forall got, 0 < got <= b -> got * 2 ^ 64 <= n' * w -> 0 < b - got).
    { intros got G LE. assert (n' * w <= (n - 1) * w) by (apply N.mul_le_mono_r; lia). assert (got * 2 ^ 64 < b * 2 ^ 64) by lia. apply N.mul_lt_mono_pos_r in H0; [lia|reflexivity]. }
    destruct ME as [-> | ->].
    + destruct (C44_trade _ _ _ _ _ _ _ _ HP OK) as (amount & got & D2 & _ & _ & _ & -> & _ & G & Q1 & _ & S1 & _). rewrite D' in D2. injection D2 as <-. rewrite S1. apply Q; auto.
    + destruct (C44_accept _ _ _ _ _ _ _ _ HP OK) as (amount & got & paid & D2 & _ & _ & _ & -> & _ & G & PA & Q1 & _ & S1 & _); auto. { intros cur k Q0. rewrite D' in Q0. injection Q0 as _ <-. lia. } { apply BB. }
      rewrite D' in D2. injection D2 as <-. rewrite S1. apply Q; auto. etransitivity; [exact Q1|]. apply N.mul_le_mono_r. exact PA.
Qed.
Print Assumptions C110_accept.

(** ** What a new offer costs: at least what was asked, and hardly more unless the price is so high that its inverse has few digits. *)
Theorem C110_ask : forall owner bid bc ask ac h x cur n, offered owner bid bc ask ac h x -> told x = Some (cur, n) ->
  cur = ac /\ ask <= n /\ (n - ask) * (bid * 2 ^ 64 / ask) < ask + bid * 2 ^ 64 / ask /\ (ask * ask <= bid * 2 ^ 64 -> n <= ask + 1) /\ ((bid * 2 ^ 64) mod ask = 0 -> n = ask).
Proof.
  intros owner bid bc ask ac h x cur n OF T. apply offered_inv in OF as (FX & SX & B & A & I & NE). destruct x as (v, bal). cbn [fst snd] in *. subst. apply told_inv in T as (-> & _ & _ & _ & L1 & L2). cbn [Offer.bid_currency Offer.ask_currency Offer.inv_price] in *.
  assert (EB : credit (fun _ => 0) bc bid bc = bid) by (unfold credit; rewrite addr_eqb_refl; lia). rewrite EB in *. specialize (L2 (proj1 B)). pose proof (N.mul_div_le (bid * 2 ^ 64) ask ltac:(lia)) as G1. pose proof (N.mul_succ_div_gt (bid * 2 ^ 64) ask ltac:(lia)) as G2. pose proof (N.div_mod (bid * 2 ^ 64) ask ltac:(lia)) as G3.
  set (z := bid * 2 ^ 64) in *. assert (Z : 0 < z) by (apply N.mul_pos_pos; [apply B|reflexivity]). clearbody z. set (w := z / ask) in *. set (r := z mod ask) in *. assert (R : r < ask) by (apply N.mod_lt; lia). clearbody w r. clear EB B NE. destruct A as (A & _). destruct I as (I & _).
  split; auto. assert (LE : ask <= n). { destruct (N.le_gt_cases ask n) as [|LT]; auto. assert (n * w < ask * w) by (apply N.mul_lt_mono_pos_r; auto). lia. }
  split; auto. assert (UP : (n - ask) * w < ask + w). { rewrite N.mul_sub_distr_r in *. rewrite N.mul_1_l in L2. rewrite N.mul_succ_r in G2. lia. }
  split; auto. split.
  - intros SQ. assert (AW : ask <= w). { destruct (N.le_gt_cases ask w) as [|LT]; auto. assert (ask * N.succ w <= ask * ask) by (apply N.mul_le_mono_l; lia). lia. }
    destruct (N.le_gt_cases n (ask + 1)) as [|GT]; auto. assert (2 * w <= (n - ask) * w) by (apply N.mul_le_mono_r; lia). lia.
  - intros ->. destruct (N.eq_dec n ask) as [|NE]; auto. assert (ask * w <= (n - 1) * w) by (apply N.mul_le_mono_r; lia). lia.
Qed.
Print Assumptions C110_ask.
(** which offers can be made: those whose price, as a fraction of 2^64, is neither 0 nor too large *)
Theorem C110_possible : forall owner bid bc ask ac h, bid < 2 ^ 128 -> ask < 2 ^ 128 ->
  (exists x, offered owner bid bc ask ac h x) <-> 0 < bid /\ 0 < ask /\ bc <> ac /\ ask <= bid * 2 ^ 64 /\ bid < 2 ^ 64 * ask.
Proof.
  intros owner bid bc ask ac h B A. split.
  - intros (x & OF). apply offered_inv in OF as (_ & _ & B1 & A1 & I & NE). split; [lia|]. split; [lia|]. split; auto. split.
    + destruct (N.le_gt_cases ask (bid * 2 ^ 64)) as [|LT]; auto. rewrite N.div_small in I by auto. lia.
    + destruct I as (_ & I). apply (N.mul_lt_mono_pos_r (2 ^ 64)); [reflexivity|]. replace (2 ^ 64 * ask * 2 ^ 64) with (ask * 2 ^ 128) by lia. pose proof (N.mul_succ_div_gt (bid * 2 ^ 64) ask ltac:(lia)) as G2. eapply N.lt_le_trans; [exact G2|]. apply N.mul_le_mono_l. lia.
  - intros (B0 & A0 & NE & L1 & L2). assert (P : 0 < bid * 2 ^ 64 / ask) by (apply N.div_str_pos; split; [lia|auto]).
    assert (Q : bid * 2 ^ 64 / ask < 2 ^ 128). { apply N.div_lt_upper_bound; [lia|]. replace (ask * 2 ^ 128) with (2 ^ 64 * ask * 2 ^ 64) by lia. apply N.mul_lt_mono_pos_r; [reflexivity|auto]. }
    unfold offered, make_offer, deployed. destruct (N.eqb_spec bid 0); [lia|]. destruct (N.eqb_spec ask 0); [lia|]. cbn [orb]. cbv zeta. set (w := bid * 2 ^ 64 / ask) in *. clearbody w. rewrite (N.div_small w) by auto. rewrite N.eqb_refl.
    eexists. split; [exact B|]. split; [exact A|]. eexists. split; [reflexivity|]. cbn [m_owner m_bid m_ask m_price m_deposit fst snd]. unfold Offer.init. destruct (N.ltb_spec 0 w); [|lia]. destruct (addr_eqb_spec bc ac); [congruence|]. cbn [andb negb]. reflexivity.
Qed.
Print Assumptions C110_possible.
(** ** Not so: that an offer can be bought for what was asked.  With few digits in the inverse of the price it costs half as much again. *)
Theorem C110_asked_refuted : exists owner bid bc ask ac x n, offered owner bid bc ask ac 7 x /\ told x = Some (ac, n) /\ 2 * n = 3 * ask /\
  forall e p m y dst price, e_deposit e = Some (ac, ask) -> happens Offer.exec x (Call e (Offer.Accept dst price)) p m y -> 0 < snd y bc.
Proof.
  set (a := repeat 1 32). set (b := repeat 2 32). set (o := repeat 3 32). exists o, 3, a, (2 * 2 ^ 64), b, (Offer.mk o None a b 1 7, credit (fun _ => 0) a 3), (3 * 2 ^ 64).
  split. { split; [reflexivity|]. split; [reflexivity|]. eexists. split; [vm_compute; reflexivity|vm_compute; reflexivity]. }
  split; [vm_compute; reflexivity|]. split; [reflexivity|]. intros e p m y dst price D H.
  destruct (C110_accept (Offer.mk o None a b 1 7) (credit (fun _ => 0) a 3) o (Offer.Accept o 1) b (3 * 2 ^ 64) (mk_env None 0 (Some (b, 3 * 2 ^ 64)) [] 1)) as (_ & _ & L); try reflexivity.
  - split; [cbn; lia|discriminate].
  - vm_compute. auto.
  - eapply (L e (Offer.Accept dst price) p m y dst price (2 * 2 ^ 64)); auto. reflexivity.
Qed.
Print Assumptions C110_asked_refuted.

(** ** Examples: 1000 units for 300 *)
Definition oa : addr := repeat 1 32. Definition ob : addr := repeat 2 32. Definition oo : addr := repeat 3 32. Definition ot : addr := repeat 4 32.
Definition the_offer : Offer.vars * (addr -> N) := (Offer.mk oo None oa ob (1000 * 2 ^ 64 / 300) 7, credit (fun _ => 0) oa 1000).
Example C110_case : offered oo 1000 oa 300 ob 7 the_offer /\ told the_offer = Some (ob, 301) /\ accept_offer the_offer ot 5 = Some (Offer.Accept ot 5, (ob, 301)) /\ offer_trade the_offer 30 ot 5 = Some (Offer.Trade ot 5, (ob, 30)) /\
  make_offer oo 0 oa 5 ob = None /\ make_offer oo 5 oa 0 ob = None /\ make_offer oo (2 ^ 100) oa 1 ob = None /\
  exists l y k, history Offer.exec the_offer 7 l y k /\ same_price l /\ map paid_by l = [[mk_payment ot oa 99]; [mk_payment ot oa 901]] /\ snd y oa = 0 /\ snd y ob = 301.
Proof.
  split. { split; [reflexivity|]. split; [reflexivity|]. eexists. split; [vm_compute; reflexivity|vm_compute; reflexivity]. }
  split; [vm_compute; reflexivity|]. split; [vm_compute; reflexivity|]. split; [vm_compute; reflexivity|]. split; [vm_compute; reflexivity|]. split; [vm_compute; reflexivity|]. split; [vm_compute; reflexivity|].
  set (w := 1000 * 2 ^ 64 / 300). set (e1 := mk_env None 8 (Some (ob, 30)) [] 1). set (e2 := mk_env None 9 (Some (ob, 271)) [] 1).
  set (evs := [Call e1 (Offer.Trade ot w); Call e2 (Offer.Accept ot w)]). destruct (replay Offer.exec the_offer 7 evs) as [((l, y), k)|] eqn:E; [|vm_compute in E; discriminate]. exists l, y, k. split; [exact (replay_history _ _ _ _ _ _ _ E)|].
  assert (Q : option_map (fun r => (map ev_of (fst (fst r)), map paid_by (fst (fst r)), snd (snd (fst r)) oa, snd (snd (fst r)) ob)) (replay Offer.exec the_offer 7 evs) = Some (evs, [[mk_payment ot oa 99]; [mk_payment ot oa 901]], 0, 301)) by (vm_compute; reflexivity).
  rewrite E in Q. cbn [option_map fst snd] in Q. injection Q as Q1 Q2 Q3 Q4. repeat split; auto.
  intros en e pr IN EV. assert (IN' : In (ev_of en) (map ev_of l)) by now apply in_map. rewrite Q1, EV in IN'. cbn in IN'. destruct IN' as [X|[X|[]]]; discriminate X.
Qed.
