(** C45, C46: the swap contract *)
Require Import List Arith NArith ZArith Bool Lia.
From Verif Require Import BytesLib EngineModel EngineUpper CtrModel CtrSpec CtrProofs CtrProps SwapModel SwapSpec SwapProofs.
Import ListNotations. Import Swap.
Open Scope N_scope.

Definition Inv (t : addr * addr) (x : vars * (addr -> N)) : Prop :=
  W (fst x) /\ rates_ok (fst x) /\ tokens (fst x) = t /\ forall i, reserves i (fst x) + unclaimed i (fst x) <= snd x (at2 i t).
Lemma inv_sur t v bal : Inv t (v, bal) -> forall i s m, (0 <= sur i (mk_ctr v bal s m))%Z.
Proof. intros (_ & _ & T & L) i s m. specialize (L i). unfold sur. cbn [c_bal c_vars fst snd] in *. rewrite T. lia. Qed.
Lemma inv_step t x ev p m y : happens exec x ev p m y -> Inv t x -> match ev with Call e _ => forall cur n, e_deposit e = Some (cur, n) -> n < 2 ^ 128 | _ => True end -> Inv t y /\ m = [].
Proof.
  intros H I D. inversion H as [s bal e me c E|s bal cur n]; subst.
  - pose proof (inv_sur _ _ _ I) as SP. destruct I as (HW & RO & T & L). cbn [fst snd] in *. apply exec_moved in E as (d & M & SG); auto; [|intros cur n Q; apply N.lt_trans with (2 ^ 128); [eapply D; eauto|reflexivity]].
    pose proof M as (W1 & T1 & _ & S1 & N1). cbn [begin c_vars c_minted] in *. split; [|now rewrite N1]. split; [exact W1|]. split; [eapply rates_moved; eauto|]. split; [cbn [fst]; congruence|].
    intros i. specialize (SG i). specialize (S1 i). specialize (SP i [] []). cbn [fst snd]. assert (SS : (0 <= sur i c)%Z) by lia. unfold sur in SS. rewrite T1, T in SS. lia.
  - destruct I as (HW & RO & T & L). cbn [fst snd] in *. split; auto. split; auto. split; auto. split; auto. intros i. specialize (L i). cbn [fst snd]. unfold credit. destruct (addr_eqb _ cur); lia.
Qed.
Lemma inv_history t x h l y k : history exec x h l y k -> deposits_fit l -> Inv t x -> Inv t y /\ forall en, In en l -> minted_by en = [].
Proof.
  induction 1 as [x h|x h ev p m y l z h' k HP HH L H IH]; intros D I; [split; [auto|intros en []]|].
  destruct (inv_step _ _ _ _ _ _ HP I) as (I1 & ->). { destruct ev as [e me|]; auto. intros cur n Q. eapply D; [left; reflexivity|exact Q]. }
  destruct IH as (I2 & M2); auto. { intros e me p' mt cur n IN Q. eapply D; [right; exact IN|exact Q]. }
  split; auto. intros en [<-|IN]; auto.
Qed.
Lemma inv_init token currency v bal : init token currency = Some v -> Inv (token, currency) (v, bal).
Proof.
  unfold init. destruct (addr_eqb_spec token currency) as [|NE]; [discriminate|]. intros E. injection E as <-.
  assert (Z : forall q : bool, at2 q (0, 0) = 0) by (now intros []). split; [|split; [|split; [reflexivity|]]].
  - cbn [fst]. split; [exact NE|]. split; [|split; [|split]].
    + cbn [state map fee_rates]. repeat constructor; cbn [p_bal p_tot p_paid p_claimed]; rewrite ?Z; try reflexivity; lia.
    + constructor.
    + intros n p i G. unfold units. cbn [users sumN fold_right]. cbn [state] in G. apply nth_error_In in G. assert (T0 : p_tot p = (0, 0)) by (repeat (destruct G as [<-|G]; [reflexivity|]); destruct G). rewrite T0. apply Z.
    + constructor.
  - unfold rates_ok. cbn [fst state map fee_rates]. repeat constructor.
  - intros i. cbn [fst snd]. unfold reserves, unclaimed, sumN. cbn [state map fee_rates fold_right p_bal p_paid p_claimed]. rewrite !Z. cbn. lia.
Qed.
Lemma inv_reachable token currency x : reachable token currency x -> Inv (token, currency) x.
Proof. intros (v & bal & h & l & k & I & H & D). eapply inv_history in H as (R & _); eauto. now apply inv_init. Qed.

(** ** C45.  Whatever anybody does, the contract holds at least what the pools have and the fees that are owed; the units of the users add up to those of the pools; no more fees are claimed than were paid. *)
Theorem C45_solvent : forall token currency v bal, reachable token currency (v, bal) ->
  forall i, reserves i v + unclaimed i v <= bal (at2 i (token, currency)) /\
    (forall n p, nth_error (state v) (N.to_nat n) = Some p -> at2 i (p_tot p) = units i n v /\ at2 i (p_claimed p) <= at2 i (p_paid p)) /\ NoDup (map fst (users v)).
Proof.
  intros token currency v bal R i. apply inv_reachable in R as (HW & _ & _ & L). cbn [fst snd] in *. split; [apply L|]. pose proof HW as (_ & PO & _ & E & ND). split; [|exact ND].
  intros n p G. split; [apply E; auto|]. eapply W_pool_at in G; eauto. apply G.
Qed.
Print Assumptions C45_solvent.

(** ** A trade: what is paid in goes to the pools, what is paid out comes from them, at no worse than the rate their reserves give, and at least what was asked for. *)
Theorem C45_trade : forall token currency v bal e i dst mn n p m y, reachable token currency (v, bal) -> happens exec (v, bal) (Call e (Trade i dst mn n)) p m y ->
  (forall cur, c_bal (begin e v bal) cur < 2 ^ 128) ->
  let k := negb i in
  exists amount total, e_deposit e = Some (at2 i (token, currency), amount) /\ p = [mk_payment dst (at2 k (token, currency)) total] /\ m = [] /\
    0 < total /\ (forall x, mn = Some x -> x <= total) /\
    Forall2 (traded i) (state v) (state (fst y)) /\ users (fst y) = users v /\
    reserves i (fst y) = reserves i v + amount /\ unclaimed i (fst y) = unclaimed i v /\
    reserves k (fst y) + unclaimed k (fst y) + total = reserves k v + unclaimed k v.
Proof.
  intros token currency v bal e i dst mn n p m y R H CB k. apply inv_reachable in R as I. pose proof (inv_sur _ _ _ I) as SP. destruct I as (HW & RO & T & L). cbn [fst snd] in *.
  inversion H as [s b e' me c E|]; subst. cbn [exec] in E. unfold trade in E. step E. simp H0. step E. simp H0. step E. simp H0. step E. simp H1.
  match goal with D : e_deposit e = Some ?y |- _ => destruct y as (cur, amount) end. cbn [fst snd begin c_vars] in *. destruct (addr_eqb_spec cur (at2 i (tokens v))) as [->|]; [|discriminate].
  assert (AB : amount < 2 ^ 128). { specialize (CB (at2 i (tokens v))). unfold begin in CB. rewrite H0 in CB. cbn [c_bal] in CB. unfold credit in CB. rewrite addr_eqb_refl in CB. lia. }
  step E. apply uadd_same in H1. subst. step E. match type of H1 with usub _ _ _ _ = Some (_, ?cc) => assert (Q : cc = begin e v bal) by (unfold usub in H1; destruct (_ <? _); [discriminate|]; now injection H1 as _ <-) end. subst. clear H1. step E. apply udiv_inv in H1 as (_ & _ & ->).
  step E. match type of H1 with _ = Some (?y, _) => destruct y as (left', total') end. step E. simp H2. step E. simp H2. step E. simp H2. cbn [fst snd] in *. apply N.eqb_eq in E2. apply N.ltb_lt in E4. subst left'.
  assert (AB' : amount < 2 ^ 256) by (apply N.lt_trans with (2 ^ 128); [exact AB|reflexivity]).
  assert (SM : small i amount (begin e v bal)).
  { assert (BL : forall j q0 q, nth_error (state v) q0 = Some q -> at2 j (p_bal q) <= bal (at2 j (tokens v))).
    { intros j q0 q G. specialize (L j). rewrite <- T in L. pose proof (sum_ge (fun p => at2 j (p_bal p)) _ _ _ G) as S. cbn beta in S. fold (reserves j v) in S. lia. }
    intros q0 q G. cbn [begin c_vars] in G. pose proof (BL i _ _ G) as B1. pose proof (BL (negb i) _ _ G) as B2. pose proof (CB (at2 i (tokens v))) as C1. pose proof (CB (at2 (negb i) (tokens v))) as C2. unfold begin in C1, C2. rewrite H0 in C1, C2. cbn [c_bal] in *. unfold credit in *. rewrite addr_eqb_refl in C1.
    destruct (addr_eqb _ _) in C2; lia. }
  match type of H1 with _ = Some (_, ?cc) => rename cc into c1 end.
  pose proof H1 as LT. apply loop_traded in LT as (F2 & U & TK & RE); auto; [|reflexivity]. apply loop_moved in H1 as (M & S1 & S2 & _); auto; [|reflexivity]. cbn [begin c_vars] in *.
  destruct M as (W1 & _ & _ & SU & MI). apply send_inv in E as [(Z & _)|(_ & LB & ->)]; [lia|]. cbn [c_vars c_sent c_minted c_bal fst] in *. rewrite S1, MI. cbn [begin c_sent c_minted rev app]. rewrite T in *.
  exists amount, total'. split; auto. split; [reflexivity|]. split; [reflexivity|]. split; auto. split. { intros xx ->. now apply N.leb_le in E3. }
  split; [exact F2|]. split; [exact U|]. rewrite N.add_0_r in RE. split; [exact RE|].
  pose proof (SU i) as SI. pose proof (SU (negb i)) as SK. rewrite Bool.eqb_reflx in SI. assert (NB : Bool.eqb i (negb i) = false) by now destruct i. rewrite NB in SK. unfold sur in SI, SK. rewrite S2, TK in SI, SK. cbn [begin c_vars] in SI, SK. rewrite T in SI, SK. unfold k. split; lia.
Qed.
Print Assumptions C45_trade.

(** ** Providers can always get their liquidity out: after the lock, removing any amount one has succeeds, whatever others have done. *)
Theorem C45_can_withdraw : forall token currency v bal e a i amount u, reachable token currency (v, bal) -> (forall cur, bal cur < 2 ^ 128) ->
  e_user e = Some a -> e_deposit e = None -> find (Some a) (users v) = Some u -> u_unlock u <= e_height e -> 0 < amount <= at2 i (u_bal u) -> amount < 2 ^ 128 ->
  exists p m y, happens exec (v, bal) (Call e (RemLiquid i amount false)) p m y.
Proof.
  intros token currency v bal e a i amount u R CB U D F UL AL AB. apply inv_reachable in R as I. pose proof (inv_sur _ _ _ I) as SP. destruct I as (HW & RO & T & L). cbn [fst snd] in *.
  destruct (W_user_at _ _ _ HW F) as (q & G & UB).
  destruct (rem_ok i amount e (begin e v bal) a u q) as (out & c' & RM); auto.
  - intros j. unfold begin. rewrite D. apply SP.
  - intros j. unfold begin. rewrite D. cbn. apply CB.
  - assert (E : exec (RemLiquid i amount false) e (begin e v bal) = Some (tt, c')).
    { cbn [exec]. unfold rem_liquid. rewrite <- U in F. destruct (N.eqb_spec amount 0); [lia|]. cbn [negb]. unfold bind at 1 2. unfold assert at 1. rewrite (bind_ok _ _ _ _ _ _ (get_user_ok _ (begin e v bal) _ F)). unfold bind, height, assert.
      destruct (N.leb_spec (u_unlock u) (e_height e)); [|lia]. destruct (N.leb_spec amount (at2 i (u_bal u))); [|lia]. rewrite RM. reflexivity. }
    eexists. eexists. eexists. econstructor. exact E.
Qed.
Print Assumptions C45_can_withdraw.

(** ** and what is left for the others is not less per unit than before: of the token they brought, and of what the pool has bought of the other one *)
Theorem C45_fair_removal : forall token currency v bal e i amount dry p m y u q, reachable token currency (v, bal) -> (forall cur, bal cur < 2 ^ 128) -> amount < 2 ^ 128 -> 
  happens exec (v, bal) (Call e (RemLiquid i amount dry)) p m y -> find (e_user e) (users v) = Some u -> nth_error (state v) (N.to_nat (u_pool u)) = Some q ->
  let k := negb i in
  exists q', state (fst y) = upd (state v) (N.to_nat (u_pool u)) q' /\ p_paid q' = p_paid q /\ p_claimed q' = p_claimed q /\
    amount <= at2 i (p_tot q) /\ at2 i (p_tot q') = at2 i (p_tot q) - amount /\ at2 k (p_tot q') = at2 k (p_tot q) /\
    at2 i (p_bal q') <= at2 i (p_bal q) /\ at2 k (p_bal q') <= at2 k (p_bal q) /\
    at2 i (p_bal q) * at2 i (p_tot q') <= at2 i (p_bal q') * at2 i (p_tot q) /\
    (at2 k (p_bal q) - at2 k (p_tot q)) * at2 i (p_tot q') <= (at2 k (p_bal q') - at2 k (p_tot q')) * at2 i (p_tot q) /\
    (at2 k (p_bal q) <= at2 k (p_tot q) -> at2 k (p_bal q') = at2 k (p_bal q)).
Proof.
  intros token currency v bal e i amount dry p m y u q R CB AB H F G k. apply inv_reachable in R as I. pose proof (inv_sur _ _ _ I) as SP. destruct I as (HW & RO & T & L). cbn [fst snd] in *.
  inversion H as [s b e' me c E|]; subst. cbn [exec] in E. step E. injection E as <-. match type of H0 with _ = Some (_, ?cc) => rename cc into c0 end. unfold rem_liquid in H0. step H0. simp H1. step H0. apply get_user_inv in H1 as (-> & F1). cbn [begin c_vars] in F1. rewrite F in F1. injection F1 as <-.
  step H0. match type of H1 with _ = Some (_, ?cc) => assert (Q : cc = begin e v bal) by (destruct dry; [now injection H1 as _ <-|]; step H1; simp H2; now simp H1) end. subst. clear H1. step H0. simp H1. apply N.leb_le in E0.
  apply rem_inv in H0 as (u' & q' & rt & F1 & G1 & SH & _ & L1 & L2 & L3 & L4 & V & _); auto; [|intros u' F'; cbn [begin c_vars] in F'; rewrite F in F'; injection F' as <-; auto].
  cbn [begin c_vars] in *. rewrite F in F1. injection F1 as <-. rewrite G in G1. injection G1 as <-. pose proof (W_pool_at _ _ _ HW G) as PO.
  assert (BL : forall j, at2 j (p_bal q) < 2 ^ 128).
  { intros j. specialize (L j). pose proof (sum_ge (fun p => at2 j (p_bal p)) _ _ _ G) as S. cbn beta in S. fold (reserves j v) in S. specialize (CB (at2 j (token, currency))). lia. }
  apply negb_true_iff, N.eqb_neq in E. destruct (shares_ok q i amount e (begin e v bal) PO AB BL) as (r & t & SH' & R1 & R2 & R3 & R4); [lia|lia|]. rewrite SH in SH'. injection SH' as ->. cbn [fst snd] in *.
  rewrite V. cbn [state]. eexists. split; [reflexivity|]. cbn [p_paid p_claimed p_tot p_bal]. unfold k. split; auto. split; auto. split; [lia|]. rewrite !at2_same, !at2_other, !at2_other', !at2_same. split; auto. split; auto. split; [lia|]. split; [lia|]. split; [auto|]. split; [auto|]. lia.
Qed.
Print Assumptions C45_fair_removal.
(** ** Fees can be claimed by every provider (numbers below the bounds that make their product fit 256 bits). *)
Theorem C45_fees_computable : forall token currency v bal a u q, reachable token currency (v, bal) -> find (Some a) (users v) = Some u -> nth_error (state v) (N.to_nat (u_pool u)) = Some q ->
  (forall i, at2 i (p_paid q) < 2 ^ 127 /\ at2 i (u_bal u) < 2 ^ 128 /\ at2 i (p_tot q) < 2 ^ 255 /\ at2 i (u_last_tot u) < 2 ^ 255) ->
  forall i e c, exists n, earned1 q u i e c = Some (n, c) /\ n <= at2 i (p_paid q) - at2 i (p_claimed q).
Proof.
  intros token currency v bal a u q R F G B i e c. apply inv_reachable in R as (HW & _). cbn [fst] in HW. pose proof (W_pool_at _ _ _ HW G) as PO. destruct (W_user_at _ _ _ HW F) as (q' & G' & UB). rewrite G in G'. injection G' as <-.
  destruct (B i) as (B1 & B2 & B3 & B4). destruct (UB i) as (U1 & U2 & U3).
  assert (UT : at2 i (u_bal u) <= at2 i (p_tot q)).
  { pose proof HW as (_ & _ & _ & E & _). rewrite (E (u_pool u) q i G). unfold units. clear - F. induction (users v) as [|(x, o) l IH]; cbn [find] in F; [discriminate|]. rewrite sum_cons. cbn [snd].
    destruct (key_eqb x (Some a)); [injection F as ->; rewrite N.eqb_refl; lia|]. apply IH in F. lia. }
  destruct (earned1_ok q u i e c) as (n & EQ); auto. exists n. split; auto. apply earned1_le in EQ as (_ & LE); auto. intros j. apply UB.
Qed.
Print Assumptions C45_fees_computable.

(** ** C46.  A removal that is not a dry run pays the user by what the pool shrinks; nobody else is paid and no other pool is touched; not before the lock ends. *)
Theorem C46_removal_pays_partial : forall token currency v bal e i amount p m y, reachable token currency (v, bal) -> happens exec (v, bal) (Call e (RemLiquid i amount false)) p m y ->
  let k := negb i in
  exists a u q q', find (e_user e) (users v) = Some u /\ u_unlock u <= e_height e /\ 0 < amount <= at2 i (u_bal u) /\
    nth_error (state v) (N.to_nat (u_pool u)) = Some q /\ state (fst y) = upd (state v) (N.to_nat (u_pool u)) q' /\
    (p <> [] -> e_user e = Some a) /\
    p = filter (fun x => 0 <? pm_amount x) [mk_payment a (at2 i (token, currency)) (at2 i (p_bal q) - at2 i (p_bal q')); mk_payment a (at2 k (token, currency)) (at2 k (p_bal q) - at2 k (p_bal q'))] /\
    (forall j, at2 j (p_bal q') <= at2 j (p_bal q)).
Proof.
  intros token currency v bal e i amount p m y R H k. apply inv_reachable in R as I. destruct I as (HW & RO & T & L). cbn [fst snd] in *.
  inversion H as [s b e' me c E|]; subst. cbn [exec] in E. step E. injection E as <-. match type of H0 with _ = Some (_, ?cc) => rename cc into c0 end. unfold rem_liquid in H0. step H0. simp H1. step H0. apply get_user_inv in H1 as (-> & F). cbn [begin c_vars] in F. match type of F with _ = Some ?uu => rename uu into u end.
  step H0. step H1. simp H2. simp H1. apply N.leb_le in E0. step H0. simp H1. apply N.leb_le in E1.
  apply rem_inv in H0 as (u' & q & rt & F1 & G1 & SH & _ & L1 & L2 & L3 & L4 & V & c1 & c2 & D1 & D2 & EB & ES & EM); auto; [|intros u' F'; cbn [begin c_vars] in F'; rewrite F in F'; injection F' as <-; auto].
  cbn [begin c_vars] in *. rewrite F in F1. injection F1 as <-. apply negb_true_iff, N.eqb_neq in E.
  set (a := match e_user e with Some a => a | None => native end). exists a, u, q. rewrite V. cbn [state]. eexists. split; [exact F|]. split; [exact E0|]. split; [lia|]. split; [exact G1|]. split; [reflexivity|].
  subst k. cbn [p_bal]. rewrite !at2_same, !at2_other', !at2_same. rewrite ES.
  assert (SND : forall j n ca cb, (if (0 <? n) && negb false then send_user j n else ret tt) e ca = Some (tt, cb) -> c_vars cb = c_vars ca /\ (n <> 0 -> e_user e = Some a) /\
     c_sent cb = (if 0 <? n then [mk_payment a (at2 j (tokens (c_vars ca))) n] else []) ++ c_sent ca).
  { intros j n ca cb S. destruct (N.ltb_spec 0 n) as [P|P]; cbn [andb negb] in S.
    - apply send_user_inv in S as (a' & U & _ & _ & ->); auto. unfold a. rewrite U. auto.
    - injection S as <-. split; auto. split; [lia|reflexivity]. }
  apply SND in D1 as (V1 & U1 & Q1). apply SND in D2 as (V2 & U2 & Q2). cbn [begin c_vars c_sent] in *. rewrite Q2, Q1, V1, T. replace (at2 i (p_bal q) - (at2 i (p_bal q) - fst rt)) with (fst rt) by lia. replace (at2 (negb i) (p_bal q) - (at2 (negb i) (p_bal q) - snd rt)) with (snd rt) by lia.
  cbn [filter pm_amount]. split; [|split].
  - intros NE. destruct (N.ltb_spec 0 (fst rt)); [apply U1; lia|]. destruct (N.ltb_spec 0 (snd rt)); [apply U2; lia|]. now destruct NE.
  - destruct (0 <? fst rt), (0 <? snd rt); reflexivity.
  - intros j. destruct i, j; cbn; lia.
Qed.
Print Assumptions C46_removal_pays_partial.
(** ** In any call but a trade or a dry run, the caller gets exactly what leaves the pools, liquidity and fees, and nobody else gets anything. *)
Theorem C46_all_paid_partial : forall token currency v bal e me p m y, reachable token currency (v, bal) -> happens exec (v, bal) (Call e me) p m y -> e_deposit e = None ->
  match me with RemLiquid _ _ dry | RemAllLiquid dry => dry = false | Trade _ _ _ _ => False | _ => True end ->
  Forall (fun x => e_user e = Some (pm_to x)) p /\
  forall i, reserves i (fst y) + unclaimed i (fst y) + total_paid (at2 i (token, currency)) p = reserves i v + unclaimed i v.
Proof.
  intros token currency v bal e me p m y R H D ME. apply inv_reachable in R as I. destruct I as (HW & RO & T & L). cbn [fst snd] in *.
  pose proof (balance_step exec exec_keeps _ _ _ _ _ H) as BS. inversion H as [s b e' me' c E|]; subst. cbn [fst snd] in *. split.
  - assert (O : only e (exec me)) by (apply exec_only; intros i dst mn n ->; exact ME). specialize (O _ _ _ E (Forall_nil _)). apply Forall_rev. exact O.
  - intros i. assert (M : moved (begin e v bal) c (fun _ => 0%Z)).
    { destruct me as [|j n|j amount dry|dry|n|j dst mn n]; cbn [exec] in E; [| | | | |destruct ME].
      - now apply payout_moved in E as (M & _).
      - unfold add_liquid in E. step E. simp H0. step E. simp H0. congruence.
      - subst dry. step E. apply rem_liquid_moved in H0 as (M & _); auto. injection E as <-. exact M.
      - subst dry. step E. apply rem_all_moved in H0 as M; auto. injection E as <-. exact M.
      - now apply switch_moved in E. }
    destruct M as (_ & T1 & _ & SU & _). specialize (SU i). specialize (BS (at2 i (token, currency))). unfold sur in SU. cbn [begin c_vars] in *. rewrite T1, T in SU. unfold begin in SU. rewrite D in SU. cbn [c_bal c_vars came_in] in *. rewrite D in BS. lia.
Qed.
Print Assumptions C46_all_paid_partial.
(** ** Examples *)
Definition tA : addr := repeat 1 32. Definition tB : addr := repeat 2 32. Definition alice : addr := repeat 11 32. Definition bob : addr := repeat 12 32. Definition carol : addr := repeat 13 32.
Definition sw : vars := mk (tA, tB) (map (fun r => mk_pool (0, 0) (0, 0) r (0, 0) (0, 0)) fee_rates) (0, 0) [].
Definition by_ (a : addr) (h : N) (d : option (addr * N)) : env := mk_env (Some a) h d (repeat 9 32) 1.
Definition start : list (event method) :=
  [Call (by_ alice 10 (Some (tA, 1000000))) (AddLiquid false 1); Call (by_ bob 11 (Some (tB, 500000))) (AddLiquid true 1);
   Call (by_ carol 12 (Some (tB, 10000))) (Trade true carol (Some 19000) 4)].
Definition later : list (event method) := [Call (by_ alice 9000 None) Payout; Call (by_ alice 9001 None) (RemLiquid false 400000 false); Call (by_ bob 9002 None) (RemAllLiquid false); Call (by_ alice 9003 None) (SwitchPool 2)].
Definition fits_b (l : list (event method)) : bool := forallb (fun ev => match ev with Call e _ => match e_deposit e with Some (_, n) => n <? 2 ^ 128 | None => true end | _ => true end) l.
Lemma replay_reachable evs x l y k : replay exec (sw, fun _ => 0) 0 evs = Some (l, y, k) -> y = x -> fits_b evs = true -> reachable tA tB x.
Proof.
  intros R <- FB. exists sw, (fun _ => 0), 0, l, k. split; [reflexivity|]. split; [exact (replay_history _ _ _ _ _ _ _ R)|].
  assert (EV : map (fun en : event method * list payment * list (addr * N) => fst (fst en)) l = evs).
  { clear FB. revert R. generalize (sw, fun _ : addr => 0) as x0. generalize 0 as h. revert l y k. induction evs as [|ev evs IH]; intros l y k h x0 R; cbn [replay] in R; [now injection R as <- <- <-|].
    match type of R with match ?b with Some _ => _ | None => _ end = _ => destruct b as [(((p, m), y'), h')|] end; [|discriminate]. destruct (replay exec y' h' evs) as [((l', z'), k')|] eqn:R'; [|discriminate]. injection R as <- _ _. cbn. f_equal. eapply IH, R'. }
  intros e m p mt cur n IN D. unfold fits_b in FB. rewrite <- EV in FB. rewrite forallb_forall in FB. specialize (FB (Call e m)). cbn in FB. rewrite D in FB. apply N.ltb_lt, FB. apply in_map_iff. eexists. split; [|exact IN]. reflexivity.
Qed.
Definition final (evs : list (event method)) : vars * (addr -> N) := match replay exec (sw, fun _ => 0) 0 evs with Some (_, y, _) => y | None => (sw, fun _ => 0) end.
Example C45_case : reachable tA tB (final (start ++ later)) /\
  match replay exec (sw, fun _ => 0) 0 (start ++ later) with Some (l, _, _) => map paid_by l | None => [] end =
    [[]; []; [mk_payment carol tA 19558]; [mk_payment alice tA 52]; [mk_payment alice tA 392156; mk_payment alice tB 4000]; [mk_payment bob tB 500000]; []] /\
  reserves false (fst (final start)) = 980390 /\ unclaimed false (fst (final start)) = 52 /\ fst (final start) <> sw /\
  reserves false (fst (final (start ++ later))) = 588234 /\ units false 2 (fst (final (start ++ later))) = 588234 /\ units true 2 (fst (final (start ++ later))) = 6000.
Proof.
  split; [|vm_compute; repeat split; discriminate].
  destruct (replay exec (sw, fun _ => 0) 0 (start ++ later)) as [((l, y), k)|] eqn:E; [|vm_compute in E; discriminate]. eapply replay_reachable; [exact E| |reflexivity]. unfold final. now rewrite E.
Qed.
(** ** C46 refuted: `dry_run` is an argument of the public method; with it, anybody's own liquidity is taken out of the pool, before the lock ends, and nothing is sent. *)
Theorem C46_refuted : exists v bal e p m y, reachable tA tB (v, bal) /\ happens exec (v, bal) (Call e (RemAllLiquid true)) p m y /\
  reserves false (fst y) + 980390 = reserves false v /\ (forall u, find (Some alice) (users v) = Some u -> e_height e < u_unlock u) /\
  units false 1 (fst y) = 0 /\ units false 1 v = 1000000 /\ total_paid tA p = 52 /\ snd y tA = bal tA - 52.
Proof.
  destruct (replay exec (sw, fun _ => 0) 0 start) as [((l, (v, bal)), k)|] eqn:E; [|vm_compute in E; discriminate].
  set (e := by_ alice 20 None). destruct (exec (RemAllLiquid true) e (begin e v bal)) as [([], c)|] eqn:X.
  2: { vm_compute in E. injection E as _ <- <- _. vm_compute in X. discriminate. }
  exists v, bal, e, (rev (c_sent c)), (rev (c_minted c)), (c_vars c, c_bal c). split; [eapply replay_reachable; [exact E|reflexivity|reflexivity]|]. split; [now constructor|].
  vm_compute in E. injection E as _ <- <- _. vm_compute in X. injection X as <-. split; [vm_compute; reflexivity|]. split; [|repeat split; vm_compute; reflexivity].
  intros u F. vm_compute in F. injection F as <-. reflexivity.
Qed.
Print Assumptions C46_refuted.
