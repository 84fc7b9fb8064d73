(** C107, C108, C109: what the node tells about swaps is what the contract does *)
Require Import List Arith NArith ZArith Bool Lia.
From Verif Require Import BytesLib EngineModel EngineUpper CtrModel CtrSpec CtrProofs CtrProps SwapModel SwapSpec SwapProofs SwapProps EstModel EstSpec EstProofs.
Import ListNotations. Import Swap.
Open Scope N_scope.

Lemma history_volume t x h l y k : history exec x h l y k -> deposits_fit l -> Inv t x -> (forall i, at2 i (volume (fst x)) < 2 ^ 256) ->
  Inv t y /\ (forall i, at2 i (volume (fst y)) < 2 ^ 256) /\ forall i, at2 i (volume (fst y)) + fees_paid i (fst x) = at2 i (volume (fst x)) + fees_paid i (fst y) + trades_pay i (at2 i t) l /\ fees_paid i (fst x) <= fees_paid i (fst y).
Proof.
  induction 1 as [x h|x h ev p m y l z h' k HP HH L H IH]; intros D I VB; [split; auto; split; auto; intros i; unfold trades_pay; cbn; lia|].
  destruct x as (v, bal). destruct (inv_step _ _ _ _ _ _ HP I) as (I1 & ->). { destruct ev as [e me|]; auto. intros cur n Q. eapply D; [left; reflexivity|exact Q]. }
  destruct (event_volume _ _ _ _ _ _ HP) as (V1 & E1); try apply I; auto. { destruct ev as [e me|]; auto. intros cur n Q. apply N.lt_trans with (2 ^ 128); [|reflexivity]. eapply D; [left; reflexivity|exact Q]. }
  destruct IH as (I2 & V2 & E2); auto. { intros e me p' mt cur n IN Q. eapply D; [right; exact IN|exact Q]. }
  split; auto. split; auto. intros i. specialize (E1 i). specialize (E2 i). unfold trades_pay in *. rewrite sum_cons. cbn [fst] in *. destruct I as (_ & _ & T & _). cbn [fst] in T. rewrite T in E1. lia.
Qed.
Lemma init_volume token currency v : init token currency = Some v -> forall i, at2 i (volume v) = 0 /\ fees_paid i v = 0.
Proof. unfold init. destruct (addr_eqb token currency); [discriminate|]. intros [= <-] i. split; [now destruct i|]. unfold fees_paid. cbn [state map fee_rates sumN fold_right p_paid]. now destruct i. Qed.
Lemma reachable_volume token currency x : reachable token currency x -> Inv (token, currency) x /\ forall i, at2 i (volume (fst x)) < 2 ^ 256.
Proof.
  intros (v & bal & h & l & k & I & H & D). destruct (history_volume (token, currency) _ _ _ _ _ H D) as (I2 & V2 & _); auto; [now apply inv_init|]. intros i. cbn [fst]. destruct (init_volume _ _ _ I i) as (-> & _). reflexivity.
Qed.
Lemma u128_small n : n < 2 ^ 128 -> u128 n = n. Proof. intros L. unfold u128. now apply N.mod_small. Qed.
Lemma sub128_small a b : b <= a -> a < 2 ^ 128 -> sub128 a b = a - b.
Proof. intros L B. unfold sub128. set (M := 2 ^ 128) in *. assert (0 < M) by reflexivity. clearbody M. symmetry. apply (N.mod_unique _ _ 1); lia. Qed.

(** ** C107.  The estimate of a trade is exact: if it is executed on the state it was made for, whoever sends it and wherever it pays to, it pays what the node said and leaves the fee it said;
    it fails exactly if the node said so or the minimum asked for is more than the estimate. *)
Theorem C107_estimate : forall token currency v bal e i amount n self h, reachable token currency (v, bal) ->
  e_deposit e = Some (at2 i (token, currency), amount) -> (forall cur, c_bal (begin e v bal) cur < 2 ^ 128) ->
  let k := negb i in let tk := at2 k (token, currency) in
  let told := trade_estimate self h (e_version e) (v, bal) i amount n in
  (forall dst mn got fee, told = Some (got, fee) -> met mn got ->
     exists y, happens exec (v, bal) (Call e (Trade i dst mn n)) [mk_payment dst tk got] [] y /\ fees_paid k (fst y) = fees_paid k v + fee) /\
  (forall dst mn p m y, happens exec (v, bal) (Call e (Trade i dst mn n)) p m y ->
     exists got fee, told = Some (got, fee) /\ met mn got /\ p = [mk_payment dst tk got] /\ fees_paid k (fst y) = fees_paid k v + fee).
Proof.
  intros token currency v bal e i amount n self h R D CB k tk told. apply reachable_volume in R as (I & VB). destruct I as (HW & RO & T & L). cbn [fst snd] in *.
  assert (NE : at2 k (tokens v) <> at2 i (tokens v)) by now apply tok_ne. rewrite T in NE.
  assert (BK : c_bal (begin e v bal) (at2 k (token, currency)) = bal (at2 k (token, currency))). { unfold begin. rewrite D. cbn [c_bal]. unfold credit. destruct (addr_eqb_spec (at2 k (token, currency)) (at2 i (token, currency))); [congruence|reflexivity]. }
  assert (RB : reserves k v < 2 ^ 128). { specialize (L k). specialize (CB (at2 k (token, currency))). rewrite BK in CB. lia. }
  assert (RB' : reserves k v < 2 ^ 256) by (apply N.lt_trans with (2 ^ 128); [exact RB|reflexivity]).
  assert (AB : amount < 2 ^ 256). { specialize (CB (at2 i (token, currency))). unfold begin in CB. rewrite D in CB. cbn [c_bal] in CB. unfold credit in CB. rewrite addr_eqb_refl in CB. apply N.lt_trans with (2 ^ 128); [lia|reflexivity]. }
  set (e0 := mk_env None h (Some (at2 i (tokens v), amount)) self (e_version e)). set (c0 := mk_ctr v bal (@nil payment) (@nil (addr * N))).
  assert (BACK : forall dst mn p m y, happens exec (v, bal) (Call e (Trade i dst mn n)) p m y ->
     exists got fee, told = Some (got, fee) /\ met mn got /\ p = [mk_payment dst tk got] /\ m = [] /\ fees_paid k (fst y) = fees_paid k v + fee).
  { intros dst mn p m y H. inversion H as [s b ee me c E|]; subst. cbn [exec] in E.
    destruct (trade_same i dst mn n e (begin e v bal) c E) as (o & O1 & O2 & O3 & O4 & O5 & O6 & O7 & O8 & O9 & O10 & O11 & O12 & O13); auto.
    { intros cur x Q. rewrite D in Q. now injection Q as <- <-. }
    cbn [begin c_vars c_sent c_minted] in *. destruct (O13 e0 c0 self None) as (c2' & TR); auto. { cbn [e0 e_deposit]. now rewrite D, T. } { cbn [c0 c_bal]. rewrite T. symmetry. exact BK. } { exact Logic.I. }
    exists (fst o - snd o), (snd o). assert (OB : fst o < 2 ^ 128) by (unfold k in *; lia). split; [|split; auto; split].
    - unfold told, trade_estimate, ask. cbn [fst snd]. fold e0. fold c0. rewrite TR. rewrite !u128_small by lia. rewrite sub128_small by lia. reflexivity.
    - rewrite O11. cbn [rev app]. unfold tk. now rewrite T.
    - split; [now rewrite O12|]. exact O6. }
  split.
  - intros dst mn got fee TO M. unfold told, trade_estimate, ask in TO. cbn [fst snd] in TO. fold e0 in TO. fold c0 in TO. destruct (trade_r i self None n e0 c0) as [(o, c')|] eqn:TR; [|discriminate].
    assert (TR' : exists c2', trade i self None n e0 c0 = Some (tt, c2')). { apply (trade_r_same i self None n e0 c0 o c'); auto; [|exact Logic.I]. intros cur x Q. now injection Q as _ <-. }
    destruct TR' as (c2' & TT). destruct (trade_same i self None n e0 c0 c2' TT) as (o2 & O1 & O2 & O3 & O4 & O5 & O6 & O7 & O8 & O9 & O10 & O11 & O12 & O13); auto. { intros cur x Q. now injection Q as _ <-. }
    destruct (O13 e0 c0 self None) as (c3 & TR2); auto. rewrite TR in TR2. injection TR2 as <- <-.
    assert (OB : fst o < 2 ^ 128) by (cbn [c0 c_vars] in O5; unfold k in *; lia). rewrite !u128_small in TO by lia. rewrite sub128_small in TO by lia. injection TO as <- <-.
    destruct (trade_r_same i self None n e0 c0 o c' TR HW RO VB RB') with (e' := e) (c2 := begin e v bal) (dst' := dst) (mn' := mn) as (c4 & TE); auto.
    { intros cur x Q. now injection Q as _ <-. } { cbn [e0 e_deposit]. now rewrite D, T. } { cbn [c0 c_vars c_bal]. rewrite T. exact BK. }
    assert (HH : happens exec (v, bal) (Call e (Trade i dst mn n)) (rev (c_sent c4)) (rev (c_minted c4)) (c_vars c4, c_bal c4)) by (constructor; exact TE).
    destruct (BACK _ _ _ _ _ HH) as (got & fee & TO & _ & P & MT & F). unfold told, trade_estimate, ask in TO. cbn [fst snd] in TO. fold e0 in TO. fold c0 in TO. rewrite TR in TO. rewrite !u128_small in TO by lia. rewrite sub128_small in TO by lia. injection TO as <- <-.
    rewrite P, MT in HH. eexists. split; [exact HH|exact F].
  - intros dst mn p m y H. destruct (BACK _ _ _ _ _ H) as (got & fee & B1 & B2 & B3 & _ & B5). eauto 8.
Qed.
Print Assumptions C107_estimate.

(** and the wallet sends just that trade: the currency that is paid in decides the direction, and any other currency is refused *)
Theorem C107_wallet : forall token currency v bal dst amount cur mn n, reachable token currency (v, bal) ->
  match wallet_trade (v, bal) dst amount cur mn n with
  | None => cur <> token /\ cur <> currency
  | Some (m, d) => exists i, cur = at2 i (token, currency) /\ d = (cur, amount) /\ m = Trade i dst mn n /\
      forall e p mt y self h, e_deposit e = Some d -> (forall c, c_bal (begin e v bal) c < 2 ^ 128) -> happens exec (v, bal) (Call e m) p mt y ->
        exists got fee, trade_estimate self h (e_version e) (v, bal) i amount n = Some (got, fee) /\ met mn got /\ p = [mk_payment dst (at2 (negb i) (token, currency)) got]
  end.
Proof.
  intros token currency v bal dst amount cur mn n R. pose proof R as R'. apply inv_reachable in R' as (_ & _ & T & _). cbn [fst] in T. unfold wallet_trade. cbn [fst]. rewrite T. cbn [fst snd].
  assert (G : forall i, cur = at2 i (token, currency) -> exists i0, cur = at2 i0 (token, currency) /\ (cur, amount) = (cur, amount) /\ Trade i dst mn n = Trade i0 dst mn n /\
      forall e p mt y self h, e_deposit e = Some (cur, amount) -> (forall c, c_bal (begin e v bal) c < 2 ^ 128) -> happens exec (v, bal) (Call e (Trade i dst mn n)) p mt y ->
        exists got fee, trade_estimate self h (e_version e) (v, bal) i0 amount n = Some (got, fee) /\ met mn got /\ p = [mk_payment dst (at2 (negb i0) (token, currency)) got]).
  { intros i EC. exists i. split; auto. split; auto. split; auto. intros e p mt y self h D CB H. rewrite EC in D. destruct (C107_estimate token currency v bal e i amount n self h R D CB) as (_ & B). destruct (B _ _ _ _ _ H) as (got & fee & B1 & B2 & B3 & _). eauto. }
  destruct (addr_eqb_spec cur currency) as [E1|N1]; [apply (G true E1)|]. destruct (addr_eqb_spec cur token) as [E2|N2]; [apply (G false E2)|]. auto.
Qed.
Print Assumptions C107_wallet.

Lemma reach_safe token currency v bal : reachable token currency (v, bal) -> (forall cur, bal cur < 2 ^ 128) -> safe (mk_ctr v bal [] []) /\ tokens v = (token, currency).
Proof. intros R CB. apply inv_reachable in R as I. pose proof (inv_sur _ _ _ I) as SP. destruct I as (HW & _ & T & _). cbn [fst] in *. split; auto. split; auto. Qed.
(** the fees that are told are those that are paid out *)
Lemma fees_told token currency v bal e a self h c0 : reachable token currency (v, bal) -> (forall cur, bal cur < 2 ^ 128) -> e_user e = Some a -> payout_ e (mk_ctr v bal [] []) = Some (tt, c0) ->
  exists f, fees_earned self h (e_version e) (v, bal) a = Some f /\ forall j, c_bal c0 (at2 j (token, currency)) + at2 j f = bal (at2 j (token, currency)).
Proof.
  intros R CB U P. apply inv_reachable in R as (HW & _ & T & L). cbn [fst snd] in *. pose proof P as K. apply k_payout in K. apply payout_paid in P as (u & p & x & y & F & G & E1 & E2 & _ & S). cbn [c_vars c_bal c_sent] in *. rewrite U in F.
  pose proof (W_pool_at _ _ _ HW G) as PO. destruct (W_user_at _ _ _ HW F) as (p0 & G0 & UB). rewrite G in G0. injection G0 as <-.
  assert (LP : forall i, at2 i (u_last_paid u) <= at2 i (p_paid p)) by (intros i; apply UB).
  pose proof (sum_ge (fun p => at2 false (p_paid p) - at2 false (p_claimed p)) _ _ _ G) as G1. pose proof (sum_ge (fun p => at2 true (p_paid p) - at2 true (p_claimed p)) _ _ _ G) as G2. cbn beta in G1, G2. fold (unclaimed false v) in G1. fold (unclaimed true v) in G2.
  destruct (earned1_le _ _ _ _ _ _ _ PO LP E1) as (_ & B1). destruct (earned1_le _ _ _ _ _ _ _ PO LP E2) as (_ & B2). pose proof (L false) as L0. pose proof (L true) as L1. pose proof (CB (at2 false (token, currency))) as C0. pose proof (CB (at2 true (token, currency))) as C1.
  exists (x, y). split.
  - unfold fees_earned, ask, get_earned_fees. rewrite (bind_ok get _ _ _ _ _ eq_refl). cbn [fst snd c_vars]. rewrite F. set (e0 := mk_env None h None self (e_version e)).
    rewrite (bind_ok _ _ _ _ _ _ (get_pool_ok (u_pool u) e0 (mk_ctr v bal [] []) p G)). destruct (v_earned _ _ _ e e0 _ _ _ eq_refl E1) as (_ & F1). destruct (v_earned _ _ _ e e0 _ _ _ eq_refl E2) as (_ & F2).
    rewrite (bind_ok _ _ _ _ _ _ (F1 bal [] [])), (bind_ok _ _ _ _ _ _ (F2 bal [] [])). unfold ret. cbn [fst snd]. rewrite !u128_small by lia. reflexivity.
  - assert (NE : at2 true (tokens v) <> at2 false (tokens v)) by exact (tok_ne _ false HW). rewrite T in *. intros j. specialize (K (at2 j (token, currency))). specialize (S (at2 j (token, currency))). cbn [paid fold_right] in *. destruct j; cbn [at2 fst snd] in *.
    + rewrite addr_eqb_refl in S. destruct (addr_eqb_spec token currency); [congruence|]. lia.
    + rewrite addr_eqb_refl in S. destruct (addr_eqb_spec currency token); [congruence|]. lia.
Qed.
Lemma each_open i out e c out' c' : each (fun i n => rem_liquid i n false) i out e c = Some (out', c') -> (exists u, find (e_user e) (users (c_vars c)) = Some u /\ u_unlock u <= CtrModel.e_height e) \/ (out' = out /\ c' = c).
Proof.
  intros H. unfold each in H. step H. apply get_user_inv in H0 as (-> & F). cbv zeta in H. destruct (0 <? at2 i (u_bal x)).
  - left. exists x. split; auto. step H. clear H. match goal with R : rem_liquid _ _ _ _ _ = _ |- _ => rename R into H end. unfold rem_liquid in H. step H. apply assert_inv in H0 as (_ & ->). step H. apply get_user_inv in H0 as (-> & F2). rewrite F in F2. injection F2 as <-. step H. step H0. injection H1 as <- <-. apply assert_inv in H0 as (L & _). now apply N.leb_le in L.
  - right. injection H as <- <-. auto.
Qed.
(** ** C108.  What a provider is told their liquidity is worth is what they get when they take all of it out, after the lock and on the same state: that, and the fees the node says they have earned. *)
Theorem C108_liquidity : forall token currency v bal e a self h, reachable token currency (v, bal) -> (forall cur, bal cur < 2 ^ 128) -> e_user e = Some a -> e_deposit e = None ->
  let worth := equivalent_liquidity self h (e_version e) (v, bal) a in let fees := fees_earned self h (e_version e) (v, bal) a in
  (forall p m y, happens exec (v, bal) (Call e (RemAllLiquid false)) p m y ->
     exists q f, worth = Some q /\ fees = Some f /\ all_to a p /\ forall i, total_paid (at2 i (token, currency)) p = at2 i q + at2 i f) /\
  (forall q u, worth = Some q -> find (Some a) (users v) = Some u -> u_unlock u <= e_height e -> exists p m y, happens exec (v, bal) (Call e (RemAllLiquid false)) p m y).
Proof.
  intros token currency v bal e a self h R CB U D worth fees. destruct (reach_safe _ _ _ _ R CB) as (SF & T). set (e0 := mk_env (Some a) h None self (e_version e)). split.
  - intros p m y H. pose proof (happens_paid _ _ _ _ _ _ _ H D) as HP. inversion H as [s b ee me c E|]; subst. pose proof E as EO. cbn [exec] in E. rewrite begin_safe in E by auto. step E. rename x into out. rename H0 into E0. injection E as <-. rename E0 into E. rename c0 into cE.
    destruct (all_rel false true e e0 _ a out _ E SF U eq_refl eq_refl ltac:(discriminate)) as (c0 & c2' & P0 & RA & _ & OB).
    destruct (fees_told token currency v bal e a self h c0 R CB U P0) as (f & FE & FB).
    assert (ULK : unlocked a (e_height e) (mk_ctr v bal [] []) \/ (out = (0, 0) /\ cE = c0)).
    { unfold rem_all_liquid in E. step E. rewrite P0 in H0. injection H0 as <- <-. pose proof P0 as H0. pose proof H0 as PS. apply (payout_safe _ _ _ _ a) in PS as (SF0 & _ & _); auto. destruct (payout_moved _ _ _ _ (proj1 SF) H0) as (_ & SU & _). rewrite U in SU.
      step E. apply each_open in H1 as [(u' & F' & L')|(-> & ->)]; [|apply each_open in E as [(u' & F' & L')|(-> & ->)]; [|right; auto]].
      1,2: left; intros u FU; destruct (SU u FU) as (u2 & F2 & _ & _ & UE); rewrite U, F2 in F'; injection F' as <-; rewrite <- UE; exact L'. }
    exists out, f. split; [|split; auto; split].
    + unfold worth, equivalent_liquidity, ask. cbn [fst snd]. fold e0. rewrite RA. rewrite !u128_small by (first [apply (OB false)|apply (OB true)]). now destruct out.
    + pose proof (exec_only (RemAllLiquid false) e ltac:(discriminate) _ _ _ EO) as OO. unfold all_to. apply Forall_rev. unfold begin in OO. rewrite U in OO. specialize (OO (Forall_nil _)). eapply Forall_impl; [|exact OO]. intros pm Q. cbn beta in Q. congruence.
    + intros i. specialize (HP (at2 i (token, currency))). specialize (FB i). cbn [snd] in HP. rewrite total_paid_paid. 
      destruct ULK as [ULK|Z].
      * destruct (all_rel false false e e _ a out _ E SF U U eq_refl ltac:(auto)) as (c0' & c3 & P0' & RA' & (T3 & _ & B3) & _). rewrite P0 in P0'. injection P0' as <-. rewrite E in RA'. injection RA' as <-. specialize (B3 i).
        destruct (payout_safe _ _ _ _ a P0 SF U) as (_ & _ & T0). rewrite T0 in B3. cbn [c_vars] in B3. rewrite T in B3. lia.
      * destruct Z as (-> & ->). destruct i; cbn [at2 fst snd] in *; lia.
  - intros q u WQ F UL. unfold worth, equivalent_liquidity, ask in WQ. cbn [fst snd] in WQ. fold e0 in WQ. destruct (rem_all_liquid true e0 (mk_ctr v bal [] [])) as [(out, c')|] eqn:E; [|discriminate].
    destruct (all_rel true false e0 e _ a out c' E SF eq_refl U eq_refl) as (c0 & c2' & _ & RA & _). { intros _ u' F'. cbn [c_vars] in F'. rewrite F in F'. injection F' as <-. exact UL. }
    eexists. eexists. eexists. constructor. cbn [exec]. rewrite begin_safe by auto. rewrite (bind_ok _ _ _ _ _ _ RA). reflexivity.
Qed.
Print Assumptions C108_liquidity.
(** the wallet does the same with three operations *)
Theorem C108_wallet : forall token currency v bal e a u self h p y, reachable token currency (v, bal) -> (forall cur, bal cur < 2 ^ 128) -> e_user e = Some a -> e_deposit e = None ->
  find (Some a) (users v) = Some u -> in_order e (v, bal) (wallet_remove (u_bal u)) p y ->
  exists q f, equivalent_liquidity self h (e_version e) (v, bal) a = Some q /\ fees_earned self h (e_version e) (v, bal) a = Some f /\
    (forall cur, snd y cur + total_paid cur p = bal cur) /\ forall i, total_paid (at2 i (token, currency)) p = at2 i q + at2 i f.
Proof.
  intros token currency v bal e a u self h p y R CB U D F H. destruct (reach_safe _ _ _ _ R CB) as (SF & T). set (e0 := mk_env (Some a) h None self (e_version e)).
  destruct (wallet_rel e e0 v bal a u p y H F SF D U eq_refl eq_refl) as (c0 & out & c' & P0 & RA & B).
  destruct (fees_told token currency v bal e a self h c0 R CB U P0) as (f & FE & FB).
  destruct (all_rel true true e0 e0 _ a out c' RA SF eq_refl eq_refl eq_refl ltac:(discriminate)) as (_ & _ & _ & _ & _ & OB).
  assert (PB : forall cur, snd y cur + total_paid cur p = bal cur).
  { clear - H D. remember (v, bal) as x. revert v bal Heqx. induction H as [x|x m ms p mt y q z HP HI IH]; intros v bal ->; intros cur; [rewrite total_paid_paid; cbn; lia|].
    pose proof (happens_paid _ _ _ _ _ _ _ HP D cur) as E. destruct y as (v1, b1). specialize (IH v1 b1 eq_refl cur). cbn [snd] in *. rewrite total_paid_paid in IH. rewrite total_paid_paid, paid_app. lia. }
  exists out, f. split; [|split; auto; split; auto].
  - unfold equivalent_liquidity, ask. cbn [fst snd]. fold e0. rewrite RA. rewrite !u128_small by (first [apply (OB false)|apply (OB true)]). now destruct out.
  - intros i. specialize (PB (at2 i (token, currency))). specialize (FB i). specialize (B i). rewrite T in B. lia.
Qed.
Print Assumptions C108_wallet.

(** ** C109.  The sums that the node tells about a swap *)
Lemma pools_sum (f : pool -> N2) v i : sum_pools f v i = u128 (sumN (fun p => at2 i (f p)) (state v)).
Proof.
  assert (G : forall l s, fold_left (fun s p => u128 (s + u128 (at2 i (f p)))) l s = match l with [] => s | _ => u128 (s + sumN (fun p => at2 i (f p)) l) end).
  { induction l as [|p l IH]; intros s; auto. cbn [fold_left]. rewrite IH, sum_cons. unfold u128. destruct l as [|p' l].
    - unfold sumN. cbn [map fold_right]. rewrite N.add_0_r. now rewrite N.add_mod_idemp_r by discriminate.
    - rewrite N.add_mod_idemp_l by discriminate. rewrite <- (N.add_mod_idemp_r s) by discriminate. rewrite <- N.add_assoc. rewrite (N.add_mod s _ (2 ^ 128)) by discriminate. rewrite (N.add_mod (at2 i (f p) mod 2 ^ 128)) by discriminate. rewrite N.mod_mod by discriminate.
      rewrite <- (N.add_mod (at2 i (f p))) by discriminate. rewrite <- N.add_mod by discriminate. now rewrite N.add_mod_idemp_r by discriminate. }
  unfold sum_pools. rewrite G. destruct (state v); [reflexivity|]. now rewrite N.add_0_l.
Qed.
Lemma sub_u128 a b : sub128 (u128 (a + b)) (u128 b) = u128 a.
Proof.
  unfold sub128, u128. assert (M0 : 2 ^ 128 <> 0) by discriminate. set (M := 2 ^ 128) in *. clearbody M. pose proof (N.mod_lt b M M0) as L. pose proof (N.div_mod b M M0) as E. set (r := b mod M) in *. set (q := b / M) in *. clearbody r q.
  rewrite <- N.add_sub_assoc by lia. rewrite N.add_mod_idemp_l by auto. replace (a + b + (M - r)) with (a + (q + 1) * M) by lia. now rewrite N.mod_add by auto.
Qed.
Theorem C109_info : forall token currency v bal day week, reachable token currency (v, bal) -> (forall cur, bal cur < 2 ^ 128) ->
  let x := get_swap_info (v, bal) day week in
  i_tokens x = (token, currency) /\
  forall i, at2 i (i_wallet x) = bal (at2 i (token, currency)) /\ at2 i (i_balance x) = reserves i v /\
    sub128 (at2 i (i_fees_paid x)) (at2 i (i_fees_claimed x)) = unclaimed i v /\
    at2 i (i_balance x) + sub128 (at2 i (i_fees_paid x)) (at2 i (i_fees_claimed x)) <= at2 i (i_wallet x).
Proof.
  intros token currency v bal day week R CB x. apply inv_reachable in R as (HW & RO & T & L). cbn [fst snd] in *. split; [exact T|]. intros i.
  assert (WW : at2 i (i_wallet x) = bal (at2 i (token, currency))) by (unfold x, get_swap_info; cbn [fst snd i_wallet]; rewrite T; now destruct i).
  assert (BB : at2 i (i_balance x) = reserves i v). { transitivity (sum_pools p_bal v i); [now destruct i|]. rewrite pools_sum. apply u128_small. specialize (L i). specialize (CB (at2 i (token, currency))). unfold reserves in *. lia. }
  assert (FF : sub128 (at2 i (i_fees_paid x)) (at2 i (i_fees_claimed x)) = unclaimed i v).
  { transitivity (sub128 (sum_pools p_paid v i) (sum_pools p_claimed v i)); [now destruct i|]. rewrite !pools_sum.
    assert (UE : unclaimed i v + sumN (fun p => at2 i (p_claimed p)) (state v) = sumN (fun p => at2 i (p_paid p)) (state v)).
    { destruct HW as (_ & PO & _). unfold unclaimed. clear - PO. induction (state v) as [|p l IH]; [reflexivity|]. rewrite !sum_cons. inversion PO as [|? ? P1 P2]; subst. specialize (IH P2). destruct (P1 i) as (_ & _ & _ & P3). lia. }
    rewrite <- UE. specialize (L i). specialize (CB (at2 i (token, currency))). rewrite sub_u128. apply u128_small. lia. }
  split; auto. split; auto. split; auto. rewrite FF, BB, WW. apply L.
Qed.
Print Assumptions C109_info.
Lemma history_heights x h l y k : history exec x h l y k -> forall e m p mt, In (Call e m, p, mt) l -> h <= CtrModel.e_height e.
Proof. induction 1 as [x h|x h ev p m y l z h' k HP HH L H IH]; intros e me p' mt IN; [destruct IN|]. destruct IN as [[= -> -> ->]|IN]; [subst; lia|]. apply IH in IN. lia. Qed.
Theorem C109_stored : forall h x h0 l y k, history exec x h0 l y k -> exists o, stored_at h x h0 l y k o.
Proof.
  intros h x h0 l y k H. destruct (N.lt_ge_cases h h0) as [L|L]; [exists None; left; auto|]. cut (exists l1 l2 x1 h1, l = l1 ++ l2 /\ history exec x h0 l1 x1 h1 /\ history exec x1 h1 l2 y k /\ up_to h l1 /\ after h l2).
  { intros (l1 & l2 & x1 & h1 & ? & ? & ? & ? & ?). exists (Some (fst x1)). right. split; auto. exists l1, l2, x1, h1. auto 7. }
  induction H as [x h0|x h0 ev p m y l z h' k HP HH LE H IH].
  - exists [], [], x, h0. split; auto. split; [constructor|]. split; [constructor|]. split; intros e m p mt [].
  - destruct (N.lt_ge_cases h h') as [L2|L2].
    + exists [], ((ev, p, m) :: l), x, h0. split; auto. split; [constructor|]. split; [econstructor; eauto|]. split; [intros ? ? ? ? []|]. intros e me p' mt [[= -> -> ->]|IN]; [cbn in HH; lia|]. eapply history_heights in IN; [|exact H]. lia.
    + destruct (IH L2) as (l1 & l2 & x1 & h1 & -> & H1 & H2 & U & A). exists ((ev, p, m) :: l1), l2, x1, h1. split; auto. split; [econstructor; eauto|]. split; auto. split; auto. intros e me p' mt [[= -> -> ->]|IN]; [cbn in HH; lia|eapply U; exact IN].
Qed.
Print Assumptions C109_stored.
Lemma trades_after_app h k tok l1 l2 : up_to h l1 -> after h l2 -> trades_after h k tok (l1 ++ l2) = trades_pay k tok l2.
Proof.
  unfold trades_after, trades_pay. intros U A. induction l1 as [|en l1 IH].
  - cbn [app]. clear U. induction l2 as [|en l2 IH]; auto. assert (A' : after h l2) by (intros e m p mt IN; eapply A; right; exact IN). specialize (IH A'). cbn [filter]. destruct en as ((ev, p), m). unfold is_after at 1. cbn [ev_of fst]. destruct ev as [e me|cur n].
    + destruct (N.ltb_spec h (CtrModel.e_height e)) as [Q|Q]; [rewrite !sum_cons; lia|]. pose proof (A e me p m ltac:(left; reflexivity)). lia.
    + rewrite !sum_cons. unfold trade_pays at 2. cbn [ev_of fst]. lia.
  - cbn [app filter]. assert (U' : up_to h l1) by (intros e m p mt IN; eapply U; right; exact IN). destruct en as ((ev, p), m). unfold is_after at 1. cbn [ev_of fst]. destruct ev as [e me|cur n]; [|apply IH; auto].
    destruct (N.ltb_spec h (CtrModel.e_height e)) as [Q|Q]; [|apply IH; auto]. pose proof (U e me p m ltac:(left; reflexivity)). lia.
Qed.
(** the volume since a height is what the trades after it paid out together with their fees, modulo 2^128 *)
Theorem C109_volume : forall token currency v0 bal0 h0 l v bal k, init token currency = Some v0 -> history exec (v0, bal0) h0 l (v, bal) k -> deposits_fit l ->
  forall height day week, stored_at (ago height DAY) (v0, bal0) h0 l (v, bal) k day -> stored_at (ago height WEEK) (v0, bal0) h0 l (v, bal) k week ->
  let x := get_swap_info (v, bal) day week in let before o i := match o with Some w => fees_paid i w | None => 0 end in
  forall i, at2 i (i_volume x) = u128 (trades_pay i (at2 i (token, currency)) l + fees_paid i v) /\
    at2 i (i_volume_1d x) = u128 (trades_after (ago height DAY) i (at2 i (token, currency)) l + (fees_paid i v - before day i)) /\ before day i <= fees_paid i v /\
    at2 i (i_volume_7d x) = u128 (trades_after (ago height WEEK) i (at2 i (token, currency)) l + (fees_paid i v - before week i)) /\ before week i <= fees_paid i v.
Proof.
  intros token currency v0 bal0 h0 l v bal k I H D height day week SD SW x before i.
  assert (IB : forall i, at2 i (volume v0) < 2 ^ 256) by (intros j; destruct (init_volume _ _ _ I j) as (-> & _); reflexivity).
  destruct (init_volume _ _ _ I i) as (V0 & F0). pose proof (inv_init _ _ _ bal0 I) as I0. destruct (history_volume (token, currency) _ _ _ _ _ H D I0 IB) as (_ & _ & E). destruct (E i) as (E' & _). clear E. rename E' into E. cbn [fst] in E. rewrite V0, F0 in E.
  assert (G : forall hh o, stored_at hh (v0, bal0) h0 l (v, bal) k o -> since v o i = u128 (trades_after hh i (at2 i (token, currency)) l + (fees_paid i v - before o i)) /\ before o i <= fees_paid i v).
  { intros hh o [(L & ->)|(L & l1 & l2 & x1 & h1 & -> & H1 & H2 & U & A & ->)].
    - cbn [before since]. rewrite N.sub_0_r. split; [|lia]. rewrite (trades_after_app hh _ _ [] l); [f_equal; lia|intros ? ? ? ? []|]. intros e m p mt IN. eapply history_heights in IN; [|exact H]. lia.
    - rewrite trades_after_app by auto. cbn [before since]. destruct (history_volume (token, currency) _ _ _ _ _ H1) as (I1 & VB1 & _); auto. { intros e m p mt cur n IN. apply (D e m p mt). apply in_or_app. auto. }
      destruct (history_volume (token, currency) _ _ _ _ _ H2) as (_ & _ & E2); auto. { intros e m p mt cur n IN. apply (D e m p mt). apply in_or_app. auto. }
      destruct (E2 i) as (E3 & FL). cbn [fst] in E3, FL.
      split; auto. replace (at2 i (volume v)) with (trades_pay i (at2 i (token, currency)) l2 + (fees_paid i v - fees_paid i (fst x1)) + at2 i (volume (fst x1))) by lia. apply sub_u128. }
  destruct (G _ _ SD) as (G1 & G2). destruct (G _ _ SW) as (G3 & G4). split; [|split; [|split; auto; split; auto]].
  - transitivity (u128 (at2 i (volume v))); [now destruct i|]. f_equal. lia.
  - rewrite <- G1. now destruct i.
  - rewrite <- G3. now destruct i.
Qed.
Print Assumptions C109_volume.

(** ** Examples: after alice and bob have added liquidity and carol has traded *)
Example C107_case : reachable tA tB (final start) /\ trade_estimate (repeat 9 32) 5 1 (final start) false 1000 20 = Some (504, 20) /\ trade_estimate (repeat 9 32) 5 1 (final start) true 100000 20 = Some (160317, 412) /\
  wallet_trade (final start) carol 1000 tA (Some 500) 20 = Some (Trade false carol (Some 500) 20, (tA, 1000)) /\ wallet_trade (final start) carol 1000 carol None 20 = None /\
  match replay exec (final start) 0 [Call (by_ carol 9001 (Some (tA, 1000))) (Trade false carol (Some 504) 20)] with Some (l, _, _) => map paid_by l | None => [] end = [[mk_payment carol tB 504]] /\
  replay exec (final start) 0 [Call (by_ carol 9001 (Some (tA, 1000))) (Trade false carol (Some 505) 20)] = None.
Proof.
  split; [|vm_compute; repeat split].
  destruct (replay exec (sw, fun _ => 0) 0 start) as [((l, y), k)|] eqn:E; [|vm_compute in E; discriminate]. eapply replay_reachable; [exact E| |reflexivity]. unfold final. now rewrite E.
Qed.
Example C108_case : fees_earned (repeat 9 32) 5 1 (final start) alice = Some (52, 0) /\ equivalent_liquidity (repeat 9 32) 5 1 (final start) alice = Some (980390, 10000) /\ fees_earned (repeat 9 32) 5 1 (final start) carol = None /\
  match replay exec (final start) 0 [Call (by_ alice 9001 None) (RemAllLiquid false)] with Some (l, _, _) => map paid_by l | None => [] end = [[mk_payment alice tA 52; mk_payment alice tA 980390; mk_payment alice tB 10000]] /\
  replay exec (final start) 0 [Call (by_ alice 100 None) (RemAllLiquid false)] = None /\
  match replay exec (final start) 0 (map (fun m => Call (by_ alice 9001 None) m) (wallet_remove (1000000, 0))) with Some (l, _, _) => map paid_by l | None => [] end = [[mk_payment alice tA 52]; [mk_payment alice tA 980390; mk_payment alice tB 10000]].
Proof. vm_compute. repeat split. Qed.
Example C109_case : let x := get_swap_info (final start) None (Some (fst (final (firstn 2 start)))) in
  (i_wallet x, i_balance x, i_fees_paid x, i_fees_claimed x, i_user_total x) = ((980442, 510000), (980390, 510000), (52, 0), (0, 0), (1000000, 500000)) /\ (i_volume x, i_volume_1d x, i_volume_7d x) = ((19610, 0), (19610, 0), (19610, 0)) /\
  i_volume_1d (get_swap_info (final start) (Some (fst (final start))) None) = (0, 0) /\
  exists l y k, history exec (sw, fun _ => 0) 0 l y k /\ y = final start /\ map ev_of l = start /\ trades_after 11 false tA l = 19558 /\ trades_after 12 false tA l = 0 /\ ago 8651 DAY = 11.
Proof.
  split; [vm_compute; reflexivity|]. split; [vm_compute; reflexivity|]. split; [vm_compute; reflexivity|].
  destruct (replay exec (sw, fun _ => 0) 0 start) as [((l, y), k)|] eqn:E; [|vm_compute in E; discriminate]. exists l, y, k. split; [exact (replay_history _ _ _ _ _ _ _ E)|]. split; [unfold final; now rewrite E|].
  assert (Q : option_map (fun r => (map ev_of (fst (fst r)), trades_after 11 false tA (fst (fst r)), trades_after 12 false tA (fst (fst r)))) (replay exec (sw, fun _ => 0) 0 start) = Some (start, 19558, 0)) by (vm_compute; reflexivity).
  rewrite E in Q. cbn [option_map fst] in Q. injection Q as Q1 Q2 Q3. repeat split; auto.
Qed.
