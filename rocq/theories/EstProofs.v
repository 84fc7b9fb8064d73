(** Proofs about EstModel *)
Require Import List Arith NArith ZArith Bool Lia.
From Verif Require Import BytesLib EngineModel EngineUpper CtrModel CtrSpec CtrProofs SwapModel SwapSpec SwapProofs EstModel EstSpec.
Import ListNotations. Import Swap.
Open Scope N_scope.

(** ** Code that only looks at the variables of the contract *)
Definition vonly {A} (m : act vars A) : Prop := forall e e' c x c', e_version e' = e_version e -> m e c = Some (x, c') ->
  (c_bal c' = c_bal c /\ c_sent c' = c_sent c /\ c_minted c' = c_minted c) /\ forall b s mt, m e' (mk_ctr (c_vars c) b s mt) = Some (x, mk_ctr (c_vars c') b s mt).
Lemma v_bind {A B} (m : act vars A) (k : A -> act vars B) : vonly m -> (forall x, vonly (k x)) -> vonly (bind m k).
Proof.
  intros H1 H2 e e' c y c' EV H. apply bind_inv in H as (x & c1 & E1 & E2). destruct (H1 _ _ _ _ _ EV E1) as ((A1 & A2 & A3) & F1). destruct (H2 x _ _ _ _ _ EV E2) as ((B1 & B2 & B3) & F2).
  split; [split; [|split]; congruence|]. intros b s mt. unfold bind. rewrite F1. apply F2.
Qed.
Ltac vpure := intros e e' c x c' EV H; split; [|intros b s mt].
Lemma v_ret {A} (y : A) : vonly (ret y). Proof. intros e e' c x c' EV [= <- <-]. now split. Qed.
Lemma v_get : vonly (@get vars). Proof. intros e e' c x c' EV [= <- <-]. now split. Qed.
Lemma v_set v : vonly (set v). Proof. intros e e' c x c' EV [= <- <-]. now split. Qed.
Lemma v_fail {A} : vonly (@fail vars A). Proof. now intros e e' c x c' EV H. Qed.
Lemma v_uadd l r : vonly (@uadd vars l r). Proof. intros e e' c x c' EV. unfold uadd. destruct (_ <? l); [discriminate|]. intros [= <- <-]. now split. Qed.
Lemma v_usub l r : vonly (@usub vars l r). Proof. intros e e' c x c' EV. unfold usub. destruct (l <? _); [discriminate|]. intros [= <- <-]. now split. Qed.
Lemma v_udiv l r : vonly (@udiv vars l r). Proof. intros e e' c x c' EV. unfold udiv. destruct (_ =? _); [discriminate|]. intros [= <- <-]. now split. Qed.
Lemma v_umul l r : vonly (@umul vars l r).
Proof. intros e e' c x c' EV. unfold umul. rewrite EV. match goal with |- (if ?b then _ else _) = _ -> _ => destruct b end; [discriminate|]. intros [= <- <-]. now split. Qed.
#[export] Hint Resolve v_ret v_get v_set v_fail v_uadd v_usub v_udiv v_umul : vonly.
Ltac v_tac := repeat first [ progress (auto with vonly) | apply v_bind; [|intro] | progress cbv zeta | match goal with |- vonly (match ?x with _ => _ end) => destruct x end | match goal with |- vonly (if ?x then _ else _) => destruct x end ].
Lemma v_best i a : forall l n acc, vonly (best l n i a acc).
Proof. induction l as [|p l IH]; intros n acc; cbn [best]; unfold quote, ushr; v_tac. Qed.
Lemma v_loop i chunk : forall n left total out, vonly (trade_loop_r n i chunk left total out).
Proof. induction n as [|n IH]; intros left total out; cbn [trade_loop_r]; unfold get_pool; v_tac. apply v_best. Qed.
Lemma v_earned p u i : vonly (earned1 p u i).
Proof. unfold earned1. v_tac. Qed.

(** ** The loop of a trade with and without its sums *)
Lemma loop_erase i chunk : forall n left total out e c left' total' out' c', trade_loop_r n i chunk left total out e c = Some ((left', total', out'), c') ->
  trade_loop n i chunk left total e c = Some ((left', total'), c').
Proof.
  induction n as [|n IH]; intros left total out e c left' total' out' c' H; cbn [trade_loop_r trade_loop] in *; [now injection H as <- <- <- <-|].
  destruct (0 <? left); [|now injection H as <- <- <- <-]. cbv zeta in *. step H. simp H0. rewrite (bind_ok get _ _ _ _ _ eq_refl). step H. rewrite (bind_ok _ _ _ _ _ _ H0).
  destruct x as [(m, ((t, fee), g))|]; [|now apply IH in H].
  step H. rewrite (bind_ok _ _ _ _ _ _ H1). step H. rewrite (bind_ok _ _ _ _ _ _ H2). step H. apply uadd_same in H3. subst. step H. apply uadd_same in H3. subst.
  do 6 (step H; match goal with Q : _ = Some (_, ?cc) |- bind _ _ _ _ = _ => rewrite (bind_ok _ _ _ _ _ _ Q); clear Q end). eapply IH; eauto.
Qed.
Lemma sum_bal i v n p p' : nth_error (state v) n = Some p -> sumN (fun p => at2 i (p_bal p)) (upd (state v) n p') + at2 i (p_bal p) = reserves i v + at2 i (p_bal p').
Proof. intros G. unfold reserves. exact (sum_upd (fun p => at2 i (p_bal p)) _ _ p' _ G). Qed.
Lemma sum_paid i v n p p' : nth_error (state v) n = Some p -> sumN (fun p => at2 i (p_paid p)) (upd (state v) n p') + at2 i (p_paid p) = fees_paid i v + at2 i (p_paid p').
Proof. intros G. unfold fees_paid. exact (sum_upd (fun p => at2 i (p_paid p)) _ _ p' _ G). Qed.
Lemma loop_sums i chunk e : forall n left total out c left' total' c', W (c_vars c) -> rates_ok (c_vars c) -> left < 2 ^ 256 -> total < 2 ^ 256 ->
  at2 (negb i) (volume (c_vars c)) < 2 ^ 256 ->
  trade_loop n i chunk left total e c = Some ((left', total'), c') -> fst out + reserves (negb i) (c_vars c) < 2 ^ 256 -> snd out + total = fst out ->
  exists out', trade_loop_r n i chunk left total out e c = Some ((left', total', out'), c') /\ snd out' + total' = fst out' /\
    fst out' + reserves (negb i) (c_vars c') = fst out + reserves (negb i) (c_vars c) /\
    snd out' + fees_paid (negb i) (c_vars c) = snd out + fees_paid (negb i) (c_vars c') /\ fees_paid i (c_vars c') = fees_paid i (c_vars c) /\
    at2 (negb i) (volume (c_vars c')) + fst out = at2 (negb i) (volume (c_vars c)) + fst out' /\ at2 i (volume (c_vars c')) = at2 i (volume (c_vars c)) /\ at2 (negb i) (volume (c_vars c')) < 2 ^ 256.
Proof.
  induction n as [|n IH]; intros left total out c left' total' c' HW RO LB TB VB H OB OT; cbn [trade_loop trade_loop_r] in *.
  { injection H as <- <- <-. exists out. split; [reflexivity|]. lia. }
  destruct (0 <? left); [|injection H as <- <- <-; exists out; split; [reflexivity|lia]]. cbv zeta in *. step H. simp H0. rewrite (bind_ok get _ _ _ _ _ eq_refl). step H.
  rewrite (bind_ok _ _ _ _ _ _ H0). pose proof HW as (_ & PO & _). apply best_inv in H0 as (-> & B); auto; [|lia]. destruct x as [(m, ((t, fee), g))|]; [|apply IH; auto].
  destruct B as [|(k & p & q & E & G & Q & GP)]; [discriminate|]. injection E as -> <-. cbn [snd] in GP. rewrite ?N.add_0_l in *.
  assert (PP : pool_ok p) by (eapply W_pool_at; eauto). assert (RR : p_rate p < 2 ^ 64) by (unfold rates_ok in RO; rewrite Forall_forall in RO; apply RO; eapply nth_error_In, G).
  pose proof Q as QI. apply quote_inv in QI as (_ & L1 & L2 & L3 & _ & _ & _ & _); auto; [|lia].
  step H. rewrite (bind_ok _ _ _ _ _ _ H0). apply get_pool_inv in H0 as (-> & G'). rewrite Nat2N.id, G in G'. injection G' as <-. destruct (PP i) as (A1 & A2 & A3 & A4). destruct (PP (negb i)) as (B1 & B2 & B3 & B4).
  pose proof (sum_ge (fun p => at2 (negb i) (p_bal p)) _ _ _ G) as SG. cbn beta in SG. fold (reserves (negb i) (c_vars c)) in SG.
  step H. rewrite (bind_ok _ _ _ _ _ _ H0). apply uadd_inv in H0 as (-> & C1 & ->); auto; [|lia].
  rewrite (bind_ok _ _ _ _ _ _ (uadd_ok (fst out) t e c ltac:(lia))), (bind_ok _ _ _ _ _ _ (uadd_ok (snd out) fee e c ltac:(lia))).
  step H. rewrite (bind_ok _ _ _ _ _ _ H0). apply uadd_inv in H0 as (-> & C4 & ->); auto; [|lia]. step H. rewrite (bind_ok _ _ _ _ _ _ H0). apply uadd_inv in H0 as (-> & C2 & ->); auto; [|lia].
  step H. rewrite (bind_ok _ _ _ _ _ _ H0). apply usub_inv in H0 as (_ & -> & ->); auto; [|lia]. step H. rewrite (bind_ok _ _ _ _ _ _ H0). apply uadd_inv in H0 as (-> & C3 & ->); auto; [|lia]. step H. rewrite (bind_ok _ _ _ _ _ _ H0). apply usub_inv in H0 as (_ & -> & ->); auto; [|lia].
  step H. rewrite (bind_ok _ _ _ _ _ _ H0). simp H0. rewrite Nat2N.id in *.
  set (p' := mk_pool (upd2 (negb i) (at2 (negb i) (p_bal p) - t) (upd2 i (at2 i (p_bal p) + N.min chunk left) (p_bal p))) (p_tot p) (p_rate p) (upd2 (negb i) (at2 (negb i) (p_paid p) + fee) (p_paid p)) (p_claimed p)) in *.
  match type of H with trade_loop _ _ _ _ _ _ ?cc = _ => set (c1 := cc) in * end.
  assert (W1 : W (c_vars c1)).
  { destruct c as [v bal snt mt]. destruct v as [tk s vol l]. cbn [c_vars tokens state users volume c_bal c_sent c_minted] in *. unfold c1. cbn [c_vars]. rewrite <- (Nat2N.id k). apply (Wpool tk s vol l (N.of_nat k) p p'); auto.
      + rewrite Nat2N.id. exact G.
      + intros j. unfold p'. cbn [p_tot p_rate p_claimed p_paid p_bal]. destruct (PP j) as (Q1 & Q2 & Q3 & Q4). destruct i, j; cbn [Bool.eqb negb at2 upd2 fst snd] in *; (split; [lia|]); (split; [lia|]); (split; [lia|]); lia.
      + intros j. unfold p'. cbn [p_paid]. destruct i, j; cbn; lia. }
  assert (R1 : rates_ok (c_vars c1)) by (unfold rates_ok, c1; cbn [c_vars state]; apply upd_Forall; auto).
  assert (S1 : reserves (negb i) (c_vars c1) + t = reserves (negb i) (c_vars c)).
  { pose proof (sum_bal (negb i) (c_vars c) k p p' G) as Y. unfold p' in Y at 2. cbn [p_bal] in Y. rewrite at2_same in Y. unfold c1, reserves at 1. cbn [c_vars state]. lia. }
  assert (S2 : fees_paid (negb i) (c_vars c1) = fees_paid (negb i) (c_vars c) + fee).
  { pose proof (sum_paid (negb i) (c_vars c) k p p' G) as Y. unfold p' in Y at 2. cbn [p_paid] in Y. rewrite at2_same in Y. unfold c1, fees_paid at 1. cbn [c_vars state]. lia. }
  assert (S3 : fees_paid i (c_vars c1) = fees_paid i (c_vars c)).
  { pose proof (sum_paid i (c_vars c) k p p' G) as Y. unfold p' in Y at 2. cbn [p_paid] in Y. rewrite at2_other' in Y. unfold c1, fees_paid at 1. cbn [c_vars state]. lia. }
  assert (V1 : at2 (negb i) (volume (c_vars c1)) = at2 (negb i) (volume (c_vars c)) + t) by (unfold c1; cbn [c_vars volume]; now rewrite at2_same).
  assert (V2 : at2 i (volume (c_vars c1)) = at2 i (volume (c_vars c))) by (unfold c1; cbn [c_vars volume]; now rewrite at2_other').
  destruct (IH (left - N.min chunk left) (total + (t - fee)) (fst out + t, snd out + fee) c1 left' total' c') as (out' & Q1 & Q2 & Q3 & Q4 & Q5 & Q6 & Q7 & Q8); auto; cbn [fst snd] in *; try lia.
  exists out'. split; [exact Q1|]. lia.
Qed.
(** ** Volumes and fees only change by trading *)
Definition still (c c' : ctr vars) : Prop := volume (c_vars c') = volume (c_vars c) /\ map p_paid (state (c_vars c')) = map p_paid (state (c_vars c)).
Lemma still_refl c : still c c. Proof. now split. Qed.
Lemma still_trans c1 c2 c3 : still c1 c2 -> still c2 c3 -> still c1 c3.
Proof. intros (A & B) (C & D). split; congruence. Qed.
Lemma still_vars c c' : c_vars c' = c_vars c -> still c c'. Proof. intros E. unfold still. now rewrite E. Qed.
Definition quiet {A} (m : act vars A) : Prop := forall e c x c', m e c = Some (x, c') -> still c c'.
Lemma q_bind {A B} (m : act vars A) (k : A -> act vars B) : quiet m -> (forall x, quiet (k x)) -> quiet (bind m k).
Proof. intros H1 H2 e c y c' H. apply bind_inv in H as (x & c1 & E1 & E2). eapply still_trans; [eapply H1; eauto|eapply H2; eauto]. Qed.
Lemma q_pure {A} (m : act vars A) : (forall e c x c', m e c = Some (x, c') -> c_vars c' = c_vars c) -> quiet m.
Proof. intros H e c x c' E. apply still_vars. eauto. Qed.
Lemma q_get : quiet (@get vars). Proof. apply q_pure. now intros e c x c' [= <- <-]. Qed.
Lemma q_user : quiet (@user vars). Proof. apply q_pure. now intros e c x c' [= <- <-]. Qed.
Lemma q_height : quiet (@height vars). Proof. apply q_pure. now intros e c x c' [= <- <-]. Qed.
Lemma q_ret {A} (x : A) : quiet (ret x). Proof. apply q_pure. now intros e c y c' [= <- <-]. Qed.
Lemma q_fail {A} : quiet (@fail vars A). Proof. now intros e c y c' H. Qed.
Lemma q_assert b : quiet (@assert vars b). Proof. apply q_pure. intros e c x c' H. apply assert_inv in H as (_ & ->). auto. Qed.
Lemma q_deposit : quiet (@deposit vars). Proof. apply q_pure. intros e c x c' H. apply deposit_inv in H as (_ & ->). auto. Qed.
Lemma q_uadd l r : quiet (@uadd vars l r). Proof. apply q_pure. intros e c x c' H. apply uadd_same in H as ->. auto. Qed.
Lemma q_usub l r : quiet (@usub vars l r). Proof. apply q_pure. unfold usub. intros e c x c'. destruct (l <? _); [discriminate|]. now intros [= _ <-]. Qed.
Lemma q_umul l r : quiet (@umul vars l r). Proof. apply q_pure. intros e c x c' H. apply umul_le in H as (_ & _ & ->). auto. Qed.
Lemma q_udiv l r : quiet (@udiv vars l r). Proof. apply q_pure. intros e c x c' H. apply udiv_inv in H as (_ & _ & ->). auto. Qed.
Lemma send_user_vars i n e c x c' : send_user i n e c = Some (x, c') -> c_vars c' = c_vars c.
Proof. intros H. unfold send_user in H. step H. simp H0. step H. simp H0. destruct (e_user e); [|discriminate]. apply send_inv in H as [(_ & ->)|(_ & _ & ->)]; reflexivity. Qed.
Lemma q_send_user i n : quiet (send_user i n). Proof. apply q_pure. apply send_user_vars. Qed.
Lemma q_set_user u : quiet (set_user u).
Proof. intros e c x c' H. apply set_user_inv in H. subst. now split. Qed.
Lemma q_get_user : quiet get_user. Proof. intros e c x c' H. apply get_user_inv in H as (-> & _). apply still_refl. Qed.
Lemma q_get_pool n : quiet (get_pool n). Proof. intros e c x c' H. apply get_pool_inv in H as (-> & _). apply still_refl. Qed.
#[export] Hint Resolve q_get q_user q_height q_ret q_fail q_assert q_deposit q_uadd q_usub q_umul q_udiv q_send_user q_set_user q_get_user q_get_pool : quiet.
Ltac q_tac := repeat first [ progress (auto with quiet) | apply q_bind; [|intro] | progress cbv zeta | match goal with |- quiet (match ?x with _ => _ end) => destruct x end | match goal with |- quiet (if ?x then _ else _) => destruct x end ].
Lemma set_pool_still n p old e c x c' : set_pool n p e c = Some (x, c') -> nth_error (state (c_vars c)) (N.to_nat n) = Some old -> p_paid p = p_paid old -> still c c'.
Proof. intros H G E. apply set_pool_inv in H. subst. split; [reflexivity|]. cbn [c_vars state]. now apply (upd_map p_paid _ _ _ old). Qed.
Lemma q_earned p u i : quiet (earned1 p u i). Proof. unfold earned1. q_tac. Qed.
Lemma q_shares p i n : quiet (shares p i n). Proof. unfold shares. q_tac. Qed.
Lemma q_payout1 i n : quiet (payout1 i n).
Proof.
  intros e c x c' H. unfold payout1 in H. step H. apply get_user_inv in H0 as (-> & F). step H. apply get_pool_inv in H0 as (-> & G). step H. apply still_trans with c0; [|eapply q_set_user; eauto].
  destruct (0 <? n); [|injection H0 as _ <-; apply still_refl]. step H0. apply uadd_same in H1. subst. step H0. apply send_user_vars in H0. apply still_trans with c1; [|now apply still_vars].
  eapply set_pool_still; eauto.
Qed.
#[export] Hint Resolve q_earned q_shares q_payout1 : quiet.
Lemma q_payout : quiet payout_. Proof. unfold payout_. q_tac. Qed.
#[export] Hint Resolve q_payout : quiet.
Lemma q_enter n : quiet (enter n). Proof. unfold enter. q_tac. Qed.
Lemma q_add i n a : quiet (add_liquid_ i n a).
Proof.
  intros e c x c' H. unfold add_liquid_ in H. step H. simp H0. step H. simp H0. step H. apply q_enter in H0. apply still_trans with c0; auto. clear H0. step H. apply get_pool_inv in H0 as (-> & G). step H. apply get_user_inv in H0 as (-> & F). step H. simp H0.
  do 4 (step H; match goal with Q : uadd _ _ _ _ = Some (_, ?cc) |- _ => apply uadd_same in Q; subst cc end). cbv zeta in H. step H. eapply still_trans; [eapply set_pool_still; eauto|eapply q_set_user; eauto].
Qed.
(** code that leaves everything as it is *)
Definition idle {A} (m : act vars A) : Prop := forall e c x c', m e c = Some (x, c') -> c' = c.
Lemma i_bind {A B} (m : act vars A) (k : A -> act vars B) : idle m -> (forall x, idle (k x)) -> idle (bind m k).
Proof. intros H1 H2 e c y c' H. apply bind_inv in H as (x & c1 & E1 & E2). apply H1 in E1. apply H2 in E2. congruence. Qed.
Lemma i_ret {A} (x : A) : idle (ret x). Proof. now intros e c y c' [= <- <-]. Qed.
Lemma i_uadd l r : idle (@uadd vars l r). Proof. intros e c x c' H. now apply uadd_same in H. Qed.
Lemma i_usub l r : idle (@usub vars l r). Proof. unfold usub. intros e c x c'. destruct (l <? _); [discriminate|]. now intros [= _ <-]. Qed.
Lemma i_umul l r : idle (@umul vars l r). Proof. intros e c x c' H. now apply umul_le in H as (_ & _ & ->). Qed.
Lemma i_udiv l r : idle (@udiv vars l r). Proof. intros e c x c' H. now apply udiv_inv in H as (_ & _ & ->). Qed.
#[export] Hint Resolve i_ret i_uadd i_usub i_umul i_udiv : idle.
Ltac i_tac := repeat first [ progress (auto with idle) | apply i_bind; [|intro] | progress cbv zeta | match goal with |- idle (if ?x then _ else _) => destruct x end ].
Lemma i_shares p i n : idle (shares p i n). Proof. unfold shares. i_tac. Qed.
Lemma i_earned p u i : idle (earned1 p u i). Proof. unfold earned1. i_tac. Qed.
Lemma q_rem i n b : quiet (rem_liquid_ i n b).
Proof.
  intros e c x c' H. unfold rem_liquid_ in H. step H. apply get_user_inv in H0 as (-> & F). step H. apply get_pool_inv in H0 as (-> & G). step H. apply i_shares in H0. subst. cbv zeta in H.
  assert (SV : forall (q : bool) j n c1 x c2, (if q then send_user j n else ret tt) e c1 = Some (x, c2) -> c_vars c2 = c_vars c1) by (intros q j n0 c1 y c2 S; destruct q; [now apply send_user_vars in S|now injection S as _ <-]).
  step H. apply SV in H0. step H. apply i_usub in H1. subst. step H. apply SV in H1. step H. apply i_usub in H2. subst. step H. apply i_usub in H2. subst. step H. apply i_usub in H2. subst.
  step H. step H. injection H as _ <-. rewrite H0 in H1. apply still_trans with c1; [now apply still_vars|]. eapply still_trans; [eapply set_pool_still; [eassumption|rewrite H1; eassumption|reflexivity]|eapply q_set_user; eauto].
Qed.
#[export] Hint Resolve q_add q_rem q_enter : quiet.
Lemma q_rem' i n b : quiet (rem_liquid i n b). Proof. unfold rem_liquid. q_tac. Qed.
#[export] Hint Resolve q_rem' : quiet.
Lemma exec_quiet m : (forall i dst mn n, m <> Trade i dst mn n) -> quiet (exec m).
Proof. intros NT. destruct m as [|i n|i a d|d|n|i dst mn n]; cbn [exec]; [| | | | |destruct (NT i dst mn n eq_refl)]; unfold add_liquid, rem_all_liquid, switch_pool, each; q_tac. Qed.

(** ** Trades *)
Lemma trade_r_iff i dst mn n e c o c' : trade_r i dst mn n e c = Some (o, c') <->
  exists amount x1 x2 chunk total c1, 0 < n /\ e_deposit e = Some (at2 i (tokens (c_vars c)), amount) /\ @uadd vars amount n e c = Some (x1, c) /\ @usub vars x1 1 e c = Some (x2, c) /\ @udiv vars x2 n e c = Some (chunk, c) /\
    trade_loop_r (N.to_nat n) i chunk amount 0 (0, 0) e c = Some ((0, total, o), c1) /\ met mn total /\ 0 < total /\ send dst total (at2 (negb i) (tokens (c_vars c))) e c1 = Some (tt, c').
Proof.
  split.
  - intros H. unfold trade_r in H. step H. simp H0. step H. simp H0. step H. simp H0. match type of H0 with e_deposit e = Some ?d => destruct d as (a, am) end. step H. simp H1. step H. pose proof H1 as U1. apply i_uadd in U1. subst. step H. pose proof H2 as U2. apply i_usub in U2. subst. step H. pose proof H3 as U3. apply i_udiv in U3. subst.
    step H. match type of H4 with _ = Some (?z, _) => destruct z as ((lf, tt'), oo) end. cbn [fst snd] in H. step H. simp H5. step H. simp H5. step H. simp H5. step H. injection H as <- <-. cbn [fst snd] in *.
    apply N.ltb_lt in E. apply N.eqb_eq in E1. apply N.ltb_lt in E3. subst. destruct (addr_eqb_spec a (at2 i (tokens (c_vars c)))) as [->|]; [|discriminate].
    match type of H5 with send _ _ _ _ _ = Some (?u, _) => destruct u end. eexists. eexists. eexists. eexists. eexists. eexists. split; [exact E|]. split; [exact H0|]. split; [exact H1|]. split; [exact H2|]. split; [exact H3|]. split; [exact H4|]. split; [|split; auto].
    unfold met. destruct mn; auto. now apply N.leb_le.
  - intros (amount & x1 & x2 & chunk & total & c1 & NP & D & U1 & U2 & U3 & L & M & TP & S). unfold trade_r. rewrite (bind_ok get _ _ _ _ _ eq_refl). destruct (N.ltb_spec 0 n); [|lia]. rewrite (bind_ok (assert true) _ _ _ _ _ eq_refl).
    assert (DD : deposit e c = Some ((at2 i (tokens (c_vars c)), amount), c)) by (unfold deposit; now rewrite D). rewrite (bind_ok _ _ _ _ _ _ DD). cbn [fst snd]. rewrite addr_eqb_refl. rewrite (bind_ok (assert true) _ _ _ _ _ eq_refl).
    rewrite (bind_ok _ _ _ _ _ _ U1), (bind_ok _ _ _ _ _ _ U2), (bind_ok _ _ _ _ _ _ U3), (bind_ok _ _ _ _ _ _ L). cbn [fst snd]. rewrite (bind_ok (assert (0 =? 0)) _ _ _ _ _ eq_refl).
    assert (MM : match mn with Some m => m <=? total | None => true end = true) by (destruct mn; auto; now apply N.leb_le). rewrite MM. rewrite (bind_ok (assert true) _ _ _ _ _ eq_refl). destruct (N.ltb_spec 0 total); [|lia]. rewrite (bind_ok (assert true) _ _ _ _ _ eq_refl).
    rewrite (bind_ok _ _ _ _ _ _ S). reflexivity.
Qed.
Lemma trade_iff i dst mn n e c c' : trade i dst mn n e c = Some (tt, c') <->
  exists amount x1 x2 chunk total c1, 0 < n /\ e_deposit e = Some (at2 i (tokens (c_vars c)), amount) /\ @uadd vars amount n e c = Some (x1, c) /\ @usub vars x1 1 e c = Some (x2, c) /\ @udiv vars x2 n e c = Some (chunk, c) /\
    trade_loop (N.to_nat n) i chunk amount 0 e c = Some ((0, total), c1) /\ met mn total /\ 0 < total /\ send dst total (at2 (negb i) (tokens (c_vars c))) e c1 = Some (tt, c').
Proof.
  split.
  - intros H. unfold trade in H. step H. simp H0. step H. simp H0. step H. simp H0. match type of H0 with e_deposit e = Some ?d => destruct d as (a, am) end. step H. simp H1. step H. pose proof H1 as U1. apply i_uadd in U1. subst. step H. pose proof H2 as U2. apply i_usub in U2. subst. step H. pose proof H3 as U3. apply i_udiv in U3. subst.
    step H. match type of H4 with _ = Some (?z, _) => destruct z as (lf, tt') end. cbn [fst snd] in H. step H. simp H5. step H. simp H5. step H. simp H5. cbn [fst snd] in *.
    apply N.ltb_lt in E. apply N.eqb_eq in E1. apply N.ltb_lt in E3. subst. destruct (addr_eqb_spec a (at2 i (tokens (c_vars c)))) as [->|]; [|discriminate].
    eexists. eexists. eexists. eexists. eexists. eexists. split; [exact E|]. split; [exact H0|]. split; [exact H1|]. split; [exact H2|]. split; [exact H3|]. split; [exact H4|]. split; [|split; auto].
    unfold met. destruct mn; auto. now apply N.leb_le.
  - intros (amount & x1 & x2 & chunk & total & c1 & NP & D & U1 & U2 & U3 & L & M & TP & S). unfold trade. rewrite (bind_ok get _ _ _ _ _ eq_refl). destruct (N.ltb_spec 0 n); [|lia]. rewrite (bind_ok (assert true) _ _ _ _ _ eq_refl).
    assert (DD : deposit e c = Some ((at2 i (tokens (c_vars c)), amount), c)) by (unfold deposit; now rewrite D). rewrite (bind_ok _ _ _ _ _ _ DD). cbn [fst snd]. rewrite addr_eqb_refl. rewrite (bind_ok (assert true) _ _ _ _ _ eq_refl).
    rewrite (bind_ok _ _ _ _ _ _ U1), (bind_ok _ _ _ _ _ _ U2), (bind_ok _ _ _ _ _ _ U3), (bind_ok _ _ _ _ _ _ L). cbn [fst snd]. rewrite (bind_ok (assert (0 =? 0)) _ _ _ _ _ eq_refl).
    assert (MM : match mn with Some m => m <=? total | None => true end = true) by (destruct mn; auto; now apply N.leb_le). rewrite MM. rewrite (bind_ok (assert true) _ _ _ _ _ eq_refl). destruct (N.ltb_spec 0 total); [|lia]. rewrite (bind_ok (assert true) _ _ _ _ _ eq_refl).
    exact S.
Qed.
Lemma send_change dst n cur e (c c' : ctr vars) dst' e' (c2 : ctr vars) : send dst n cur e c = Some (tt, c') -> 0 < n -> c_bal c2 cur = c_bal c cur ->
  send dst' n cur e' c2 = Some (tt, mk_ctr (c_vars c2) (fun x => if addr_eqb x cur then c_bal c2 cur - n else c_bal c2 x) (mk_payment dst' cur n :: c_sent c2) (c_minted c2)).
Proof. intros S P E. apply send_inv in S as [(-> & _)|(B & L & _)]; [lia|]. apply send_ok; auto. now rewrite E. Qed.
Definition bounded (v : vars) (bal : addr -> N) : Prop := W v /\ rates_ok v /\ (forall i, at2 i (volume v) < 2 ^ 256) /\ forall i, reserves i v <= bal (at2 i (tokens v)).
(** A trade and the same trade asked for, which may go to another address and have another minimum, and which may have other balances in the token that comes in. *)
Lemma trade_same i dst mn n e c c' : trade i dst mn n e c = Some (tt, c') -> W (c_vars c) -> rates_ok (c_vars c) -> (forall i, at2 i (volume (c_vars c)) < 2 ^ 256) -> reserves (negb i) (c_vars c) < 2 ^ 256 ->
  (forall cur x, e_deposit e = Some (cur, x) -> x < 2 ^ 256) ->
  exists o, snd o <= fst o /\ fst o - snd o < 2 ^ 128 /\ 0 < fst o - snd o /\ met mn (fst o - snd o) /\ fst o + reserves (negb i) (c_vars c') = reserves (negb i) (c_vars c) /\ fees_paid (negb i) (c_vars c') = fees_paid (negb i) (c_vars c) + snd o /\ fees_paid i (c_vars c') = fees_paid i (c_vars c) /\
    at2 (negb i) (volume (c_vars c')) = at2 (negb i) (volume (c_vars c)) + fst o /\ at2 i (volume (c_vars c')) = at2 i (volume (c_vars c)) /\ at2 (negb i) (volume (c_vars c')) < 2 ^ 256 /\
    c_sent c' = mk_payment dst (at2 (negb i) (tokens (c_vars c))) (fst o - snd o) :: c_sent c /\ c_minted c' = c_minted c /\
    forall e' c2 dst' mn', e_version e' = e_version e -> e_deposit e' = e_deposit e -> c_vars c2 = c_vars c -> c_bal c2 (at2 (negb i) (tokens (c_vars c))) = c_bal c (at2 (negb i) (tokens (c_vars c))) -> met mn' (fst o - snd o) ->
      exists c2', trade_r i dst' mn' n e' c2 = Some (o, c2').
Proof.
  intros H HW RO VB RB DB. apply trade_iff in H as (amount & x1 & x2 & chunk & total & c1 & NP & D & U1 & U2 & U3 & L & M & TP & S).
  assert (AB : amount < 2 ^ 256) by (eapply DB; eauto).
  destruct (loop_sums i chunk e (N.to_nat n) amount 0 (0, 0) c 0 total c1) as (o & Q1 & Q2 & Q3 & Q4 & Q5 & Q6 & Q7 & Q8); auto; [reflexivity|]. cbn [fst snd] in *.
  pose proof Q1 as QV. destruct (v_loop _ _ _ _ _ _ e e _ _ _ eq_refl QV) as ((K1 & K2 & K3) & _). assert (TO : total = fst o - snd o) by lia. pose proof S as S'. apply send_inv in S' as [(-> & _)|(B & LB & ->)]; [lia|]. cbn [c_vars c_sent c_minted].
  exists o. rewrite <- TO. split; [lia|]. split; [lia|]. split; [lia|]. split; auto. split; [lia|]. split; [lia|]. split; auto. split; [lia|]. split; auto. split; auto. split; [now rewrite K2|]. split; auto.
  intros e' c2 dst' mn' EV ED EC EB MM. destruct (v_loop _ _ _ _ _ _ e e' _ _ _ EV QV) as (_ & F). specialize (F (c_bal c2) (c_sent c2) (c_minted c2)).
  destruct c2 as [v2 b2 s2 m2]. cbn [c_vars c_bal c_sent c_minted] in *. subst v2.
  destruct (v_uadd _ _ e e' _ _ _ EV U1) as (_ & F1). destruct (v_usub _ _ e e' _ _ _ EV U2) as (_ & F2). destruct (v_udiv _ _ e e' _ _ _ EV U3) as (_ & F3).
  eexists. apply trade_r_iff. exists amount, x1, x2, chunk, total. eexists. split; auto. split; [rewrite ED; exact D|]. split; [apply F1|]. split; [apply F2|]. split; [apply F3|]. split; [exact F|]. split; auto. split; [lia|].
  cbn [c_vars]. eapply send_change; [exact S|lia|]. cbn [c_bal]. now rewrite K1, EB.
Qed.
Lemma trade_r_same i dst mn n e c o c' : trade_r i dst mn n e c = Some (o, c') -> W (c_vars c) -> rates_ok (c_vars c) -> (forall i, at2 i (volume (c_vars c)) < 2 ^ 256) -> reserves (negb i) (c_vars c) < 2 ^ 256 ->
  (forall cur x, e_deposit e = Some (cur, x) -> x < 2 ^ 256) ->
  forall e' c2 dst' mn', e_version e' = e_version e -> e_deposit e' = e_deposit e -> c_vars c2 = c_vars c -> c_bal c2 (at2 (negb i) (tokens (c_vars c))) = c_bal c (at2 (negb i) (tokens (c_vars c))) -> met mn' (fst o - snd o) ->
    exists c2', trade i dst' mn' n e' c2 = Some (tt, c2').
Proof.
  intros H HW RO VB RB DB e' c2 dst' mn' EV ED EC EB MM. apply trade_r_iff in H as (amount & x1 & x2 & chunk & total & c1 & NP & D & U1 & U2 & U3 & QV & M & TP & S).
  assert (AB : amount < 2 ^ 256) by (eapply DB; eauto). pose proof QV as LL. apply loop_erase in LL.
  destruct (loop_sums i chunk e (N.to_nat n) amount 0 (0, 0) c 0 total c1) as (o' & Q1 & Q2 & _); auto; [reflexivity|]. rewrite QV in Q1. injection Q1 as <-.
  destruct (v_loop _ _ _ _ _ _ e e' _ _ _ EV QV) as ((K1 & K2 & K3) & F). specialize (F (c_bal c2) (c_sent c2) (c_minted c2)).
  destruct c2 as [v2 b2 s2 m2]. cbn [c_vars c_bal c_sent c_minted] in *. subst v2. apply loop_erase in F.
  destruct (v_uadd _ _ e e' _ _ _ EV U1) as (_ & F1). destruct (v_usub _ _ e e' _ _ _ EV U2) as (_ & F2). destruct (v_udiv _ _ e e' _ _ _ EV U3) as (_ & F3). assert (TO : total = fst o - snd o) by lia.
  eexists. apply trade_iff. exists amount, x1, x2, chunk, total. eexists. split; auto. split; [rewrite ED; exact D|]. split; [apply F1|]. split; [apply F2|]. split; [apply F3|]. split; [exact F|]. split; [now rewrite TO|]. split; [lia|].
  cbn [c_vars]. eapply send_change; [exact S|lia|]. cbn [c_bal]. now rewrite K1, EB.
Qed.
(** ** Code that looks at the user and the version, not at the height *)
Definition timeless {A} (m : act vars A) : Prop := forall e e' c, e_user e' = e_user e -> e_version e' = e_version e -> m e' c = m e c.
Lemma t_bind {A B} (m : act vars A) (k : A -> act vars B) : timeless m -> (forall x, timeless (k x)) -> timeless (bind m k).
Proof. intros H1 H2 e e' c EU EV. unfold bind. rewrite (H1 e e' c EU EV). destruct (m e c) as [(x, c1)|]; auto. now apply H2. Qed.
Lemma t_any {A} (m : act vars A) : (forall e e' c, m e' c = m e c) -> timeless m.
Proof. intros H e e' c _ _. apply H. Qed.
Lemma t_user : timeless (@user vars). Proof. intros e e' c EU EV. unfold user. now rewrite EU. Qed.
Lemma t_umul l r : timeless (@umul vars l r). Proof. intros e e' c EU EV. unfold umul. now rewrite EV. Qed.
Lemma t_get : timeless (@get vars). Proof. now apply t_any. Qed.
Lemma t_set v : timeless (@set vars v). Proof. now apply t_any. Qed.
Lemma t_ret {A} (x : A) : timeless (@ret vars A x). Proof. now apply t_any. Qed.
Lemma t_fail {A} : timeless (@fail vars A). Proof. now apply t_any. Qed.
Lemma t_assert b : timeless (@assert vars b). Proof. now apply t_any. Qed.
Lemma t_uadd l r : timeless (@uadd vars l r). Proof. now apply t_any. Qed.
Lemma t_usub l r : timeless (@usub vars l r). Proof. now apply t_any. Qed.
Lemma t_udiv l r : timeless (@udiv vars l r). Proof. now apply t_any. Qed.
Lemma t_send d n cur : timeless (@send vars d n cur). Proof. now apply t_any. Qed.
#[export] Hint Resolve t_user t_umul t_get t_set t_ret t_fail t_assert t_uadd t_usub t_udiv t_send : timeless.
Ltac t_tac := repeat first [ progress (auto with timeless) | apply t_bind; [|intro] | progress cbv zeta | match goal with |- timeless (match ?x with _ => _ end) => destruct x end | match goal with |- timeless (if ?x then _ else _) => destruct x end ].
Lemma t_payout : timeless payout_. Proof. unfold payout_, get_user, get_pool, earned1, payout1, set_user, set_pool, get_pool, get_user, send_user. t_tac. Qed.
Lemma t_shares p i n : timeless (shares p i n). Proof. unfold shares. t_tac. Qed.
Lemma v_shares p i n : vonly (shares p i n). Proof. unfold shares. v_tac. Qed.

(** ** A removal and the same removal as a dry run *)
Definition safe (c : ctr vars) : Prop := W (c_vars c) /\ (forall j, 0 <= sur j c)%Z /\ (forall j, c_bal c (at2 j (tokens (c_vars c))) < 2 ^ 128).
Lemma maybe_send_any (b : bool) i n e c a : e_user e = Some a -> n < 2 ^ 128 -> n <= c_bal c (at2 i (tokens (c_vars c))) ->
  exists c', (if (0 <? n) && b then send_user i n else ret tt) e c = Some (tt, c') /\ c_vars c' = c_vars c /\
    (forall cur, c_bal c' cur = if b && addr_eqb cur (at2 i (tokens (c_vars c))) then c_bal c cur - n else c_bal c cur).
Proof.
  intros U B L. destruct b; [apply maybe_send_ok with a; auto|]. rewrite andb_false_r. exists c. now split.
Qed.
Lemma rem_rel b b' i amount e e' c1 c2 a out c1' : rem_liquid_ i amount b e c1 = Some (out, c1') -> (forall u, find (e_user e) (users (c_vars c1)) = Some u -> amount <= at2 i (u_bal u)) ->
  c_vars c2 = c_vars c1 -> safe c2 -> e_user e = Some a -> e_user e' = Some a -> e_version e' = e_version e ->
  exists c2', rem_liquid_ i amount b' e' c2 = Some (out, c2') /\ c_vars c2' = c_vars c1' /\ tokens (c_vars c2') = tokens (c_vars c2) /\ safe c2' /\
    (forall j, at2 j out <= c_bal c2 (at2 j (tokens (c_vars c2)))) /\
    (forall j, c_bal c2' (at2 j (tokens (c_vars c2))) + (if b' then at2 j out else 0) = c_bal c2 (at2 j (tokens (c_vars c2)))).
Proof.
  intros H AL EC (HW & SO & CB) U U' EV. pose proof HW as HW1. rewrite EC in HW1. apply rem_inv in H as (u & p & rt & F & G & SH & -> & L1 & L2 & L3 & L4 & V & _); auto.
  pose proof (W_pool_at _ _ _ HW1 G) as PO. destruct (W_user_at _ _ _ HW1 F) as (p0 & G0 & UB). rewrite G in G0. injection G0 as <-. destruct (UB i) as (UBi & _).
  rewrite <- EC in F, G. rewrite U, <- U' in F.
  assert (BL : forall j, at2 j (p_bal p) <= c_bal c2 (at2 j (tokens (c_vars c2)))).
  { intros j. specialize (SO j). unfold sur in SO. pose proof (sum_ge (fun p => at2 j (p_bal p)) _ _ _ G) as S. cbn beta in S. fold (reserves j (c_vars c2)) in S. lia. }
  destruct (v_shares _ _ _ e e' _ _ _ EV SH) as (_ & SH2). specialize (SH2 (c_bal c2) (c_sent c2) (c_minted c2)). rewrite <- EC in SH2. assert (E2 : mk_ctr (c_vars c2) (c_bal c2) (c_sent c2) (c_minted c2) = c2) by now destruct c2. rewrite E2 in SH2.
  destruct (PO i) as (A1 & A2 & A3 & A4). destruct (PO (negb i)) as (B1 & B2 & B3 & B4). pose proof (BL i) as BLi. pose proof (BL (negb i)) as BLk. pose proof (CB i) as CBi. pose proof (CB (negb i)) as CBk.
  destruct (maybe_send_any b' i (fst rt) e' c2 a U' ltac:(lia) ltac:(lia)) as (d1 & S1 & V1 & LL1).
  assert (NE : at2 (negb i) (tokens (c_vars c2)) <> at2 i (tokens (c_vars c2))) by now apply tok_ne.
  assert (LL2 : c_bal d1 (at2 (negb i) (tokens (c_vars d1))) = c_bal c2 (at2 (negb i) (tokens (c_vars c2)))). { rewrite V1, LL1. destruct (addr_eqb_spec (at2 (negb i) (tokens (c_vars c2))) (at2 i (tokens (c_vars c2)))) as [E|]; [congruence|]. now rewrite andb_false_r. }
  destruct (maybe_send_any b' (negb i) (snd rt) e' d1 a U' ltac:(lia) ltac:(rewrite LL2; lia)) as (d2 & S2 & V2 & LL3).
  assert (R : exists c2', rem_liquid_ i amount b' e' c2 = Some (out_of i rt, c2') /\ c_vars c2' = c_vars c1' /\ c_bal c2' = c_bal d2).
  { eexists. split; [|split].
    - unfold rem_liquid_. rewrite (bind_ok _ _ _ _ _ _ (get_user_ok _ _ _ F)), (bind_ok _ _ _ _ _ _ (get_pool_ok _ e' _ _ G)), (bind_ok _ _ _ _ _ _ SH2). cbv zeta.
      rewrite (bind_ok _ _ _ _ _ _ S1). rewrite (bind_ok _ _ _ _ _ _ (usub_ok _ _ e' d1 L1 A1)). rewrite (bind_ok _ _ _ _ _ _ S2). rewrite (bind_ok _ _ _ _ _ _ (usub_ok (at2 (negb i) (p_bal p)) (snd rt) e' d2 ltac:(lia) B1)).
      rewrite (bind_ok _ _ _ _ _ _ (usub_ok (at2 i (u_bal u)) amount e' d2 ltac:(lia) UBi)). rewrite (bind_ok _ _ _ _ _ _ (usub_ok (at2 i (p_tot p)) amount e' d2 ltac:(lia) A2)).
      unfold set_pool, set_user, bind, get, set, user, ret. reflexivity.
    - cbn [c_vars tokens state volume users]. rewrite V2, V1, EC, V, U, U'. reflexivity.
    - reflexivity. }
  destruct R as (c2' & R & RV & RB). exists c2'. split; auto. split; auto.
  assert (HB : forall j, c_bal c2' (at2 j (tokens (c_vars c2))) + (if b' then at2 j (out_of i rt) else 0) = c_bal c2 (at2 j (tokens (c_vars c2)))).
  { intros j. rewrite RB, LL3, LL1, V1, at2_out. destruct b'; cbn [andb]; [|lia]. destruct (Bool.eqb_spec i j) as [<-|NJ].
    - rewrite addr_eqb_refl. destruct (addr_eqb_spec (at2 i (tokens (c_vars c2))) (at2 (negb i) (tokens (c_vars c2)))); [congruence|]. lia.
    - assert (j = negb i) by (destruct i, j; cbn; congruence). subst j. rewrite addr_eqb_refl. destruct (addr_eqb_spec (at2 (negb i) (tokens (c_vars c2))) (at2 i (tokens (c_vars c2)))); [congruence|]. lia. }
  pose proof R as RM. apply rem_moved in RM as ((W2 & T2 & _ & SU & _) & _ & _); auto.
  2: { intros u' F'. rewrite F in F'. injection F' as <-. auto. }
  split; [exact T2|]. split; [split; [exact W2|]; split|].
  - intros j. rewrite SU. specialize (SO j). destruct b'; lia.
  - intros j. rewrite T2. specialize (HB j). specialize (CB j). lia.
  - split; auto. intros j. rewrite at2_out. specialize (BL j). destruct (Bool.eqb_spec i j) as [<-|NJ]; [lia|]. assert (j = negb i) by (destruct i, j; cbn; congruence). subst j. lia.
Qed.
Definition unlocked (a : addr) (h : N) (c : ctr vars) : Prop := forall u, find (Some a) (users (c_vars c)) = Some u -> u_unlock u <= h.
(** what a removal of [out] does, for real or not *)
Definition paid_out (dry : bool) (out : N2) (c c' : ctr vars) : Prop :=
  tokens (c_vars c') = tokens (c_vars c) /\ (forall j, at2 j out <= c_bal c (at2 j (tokens (c_vars c)))) /\
  forall j, c_bal c' (at2 j (tokens (c_vars c))) + (if dry then 0 else at2 j out) = c_bal c (at2 j (tokens (c_vars c))).
Lemma reml_rel dry dry' i amount e e' c1 c2 a out c1' : rem_liquid i amount dry e c1 = Some (out, c1') ->
  c_vars c2 = c_vars c1 -> safe c2 -> e_user e = Some a -> e_user e' = Some a -> e_version e' = e_version e -> (dry' = false -> unlocked a (e_height e') c2) ->
  exists c2', rem_liquid i amount dry' e' c2 = Some (out, c2') /\ c_vars c2' = c_vars c1' /\ safe c2' /\ (forall h, unlocked a h c2 -> unlocked a h c2') /\ paid_out dry' out c2 c2'.
Proof.
  intros H EC SF U U' EV UL. unfold rem_liquid in H. step H. simp H0. step H. apply get_user_inv in H0 as (-> & F). step H.
  assert (c = c1) by (destruct dry; [now injection H0 as _ <-|]; step H0; simp H1; now simp H0). subst c. clear H0. step H. simp H0. apply N.leb_le in E0.
  assert (AL : forall u, find (e_user e) (users (c_vars c1)) = Some u -> amount <= at2 i (u_bal u)) by (intros u F'; rewrite F in F'; injection F' as <-; auto).
  destruct (rem_rel (negb dry) (negb dry') i amount e e' c1 c2 a out c1' H AL EC SF U U' EV) as (c2' & R & RV & T2 & SF2 & OL & HB).
  assert (F2 : find (e_user e') (users (c_vars c2)) = Some x0) by (rewrite EC, U', <- U; exact F).
  exists c2'. split; [|split; auto; split; auto; split].
  - unfold rem_liquid. rewrite E. rewrite (bind_ok (assert true) _ _ _ _ _ eq_refl). rewrite (bind_ok _ _ _ _ _ _ (get_user_ok _ _ _ F2)).
    assert (CH : (if dry' then ret tt else bind height (fun h => assert (u_unlock x0 <=? h))) e' c2 = Some (tt, c2)).
    { destruct dry'; [reflexivity|]. unfold bind, height. specialize (UL eq_refl x0). rewrite U' in F2. apply UL in F2. unfold assert. destruct (N.leb_spec (u_unlock x0) (e_height e')); [reflexivity|lia]. }
    rewrite (bind_ok _ _ _ _ _ _ CH). destruct (N.leb_spec amount (at2 i (u_bal x0))); [|lia]. rewrite (bind_ok (assert true) _ _ _ _ _ eq_refl). exact R.
  - intros h UH u' F'. pose proof R as RM. apply rem_moved in RM as (_ & _ & UU); [|apply SF|intros u'' F''; rewrite F2 in F''; injection F'' as <-; auto].
    destruct (UU _ F2) as (u2 & F3 & _ & UE & _). rewrite U' in F3. rewrite F3 in F'. injection F' as <-. rewrite UE. apply UH. rewrite <- U'. exact F2.
  - split; auto. split; auto. intros j. specialize (HB j). destruct dry'; exact HB.
Qed.
Lemma each_rel dry dry' i out e e' c1 c2 a out' c1' : each (fun i n => rem_liquid i n dry) i out e c1 = Some (out', c1') -> (forall j, at2 j out < 2 ^ 256) ->
  c_vars c2 = c_vars c1 -> safe c2 -> e_user e = Some a -> e_user e' = Some a -> e_version e' = e_version e -> (dry' = false -> unlocked a (e_height e') c2) ->
  exists c2' d, each (fun i n => rem_liquid i n dry') i out e' c2 = Some (out', c2') /\ (forall j, at2 j out' = at2 j out + at2 j d) /\ c_vars c2' = c_vars c1' /\ safe c2' /\ (forall h, unlocked a h c2 -> unlocked a h c2') /\ paid_out dry' d c2 c2'.
Proof.
  intros H OB EC SF U U' EV UL. unfold each in H. step H. apply get_user_inv in H0 as (-> & F). cbv zeta in H.
  assert (F2 : find (e_user e') (users (c_vars c2)) = Some x) by (rewrite EC, U', <- U; exact F).
  unfold each. rewrite (bind_ok _ _ _ _ _ _ (get_user_ok _ _ _ F2)). cbv zeta. destruct (N.ltb_spec 0 (at2 i (u_bal x))).
  - step H. rename x0 into r. assert (RB : forall j, at2 j r < 2 ^ 128).
    { destruct (reml_rel dry true i _ e e c1 c2 a r c H1 EC SF U U eq_refl ltac:(discriminate)) as (c2' & _ & _ & _ & _ & (_ & OL & _)). intros j. specialize (OL j). destruct SF as (_ & _ & CB). specialize (CB j). lia. }
    destruct (reml_rel dry dry' i _ e e' c1 c2 a r c H1 EC SF U U' EV UL) as (c2' & R & RV & SF2 & UU & P). rewrite (bind_ok _ _ _ _ _ _ R).
    assert (RB' : forall j, at2 j r < 2 ^ 256) by (intros j; apply N.lt_trans with (2 ^ 128); [apply RB|reflexivity]).
    step H. apply uadd_inv in H2 as (-> & B1 & ->); [|apply (OB false)|apply (RB' false)]. step H. apply uadd_inv in H2 as (-> & B2 & ->); [|apply (OB true)|apply (RB' true)]. injection H as <- <-.
    rewrite (bind_ok _ _ _ _ _ _ (uadd_ok _ _ e' c2' B1)), (bind_ok _ _ _ _ _ _ (uadd_ok _ _ e' c2' B2)). exists c2', r. split; [reflexivity|]. split; [intros []; reflexivity|]. auto.
  - injection H as <- <-. exists c2, (0, 0). split; [reflexivity|]. split; [intros []; cbn; lia|]. split; auto. split; auto. split; auto. split; auto. split; [intros []; cbn; lia|]. intros []; destruct dry'; cbn; lia.
Qed.
Lemma payout_paid e c x c' : payout_ e c = Some (x, c') -> exists u p a b, find (e_user e) (users (c_vars c)) = Some u /\ nth_error (state (c_vars c)) (N.to_nat (u_pool u)) = Some p /\
  earned1 p u false e c = Some (a, c) /\ earned1 p u true e c = Some (b, c) /\ tokens (c_vars c') = tokens (c_vars c) /\
  forall cur, paid cur (c_sent c') = paid cur (c_sent c) + (if addr_eqb (fst (tokens (c_vars c))) cur then a else 0) + (if addr_eqb (snd (tokens (c_vars c))) cur then b else 0).
Proof.
  intros H. unfold payout_ in H. step H. apply get_user_inv in H0 as (-> & F). step H. apply get_pool_inv in H0 as (-> & G). step H. pose proof H0 as Q1. apply i_earned in Q1. subst. step H. pose proof H1 as Q2. apply i_earned in Q2. subst.
  assert (P1 : forall i n c x c', payout1 i n e c = Some (x, c') -> tokens (c_vars c') = tokens (c_vars c) /\ forall cur, paid cur (c_sent c') = paid cur (c_sent c) + if addr_eqb (at2 i (tokens (c_vars c))) cur then n else 0).
  { clear. intros i n c x c' H. unfold payout1 in H. step H. apply get_user_inv in H0 as (-> & F). step H. apply get_pool_inv in H0 as (-> & G). step H. apply set_user_inv in H. subst c'. cbn [c_vars tokens c_sent].
    destruct (N.ltb_spec 0 n).
    - step H0. apply uadd_same in H1. subst. step H0. apply set_pool_inv in H1. subst. apply send_user_inv in H0 as (a & _ & _ & _ & ->); auto. cbn [c_vars tokens c_sent paid fold_right pm_currency pm_amount]. split; auto. intros cur. unfold paid. lia.
    - injection H0 as _ <-. split; auto. intros cur. destruct (addr_eqb _ _); lia. }
  step H. apply P1 in H2 as (T1 & S1). apply P1 in H as (T2 & S2). exists x0, x1, x2, x3. split; auto. split; auto. split; auto. split; auto. split; [congruence|]. intros cur. rewrite S2, S1, T1. reflexivity.
Qed.
Lemma k_payout : keeps payout_.
Proof. unfold payout_, get_user, get_pool, earned1, payout1, set_user, set_pool, get_pool, get_user, send_user; keeps_tac. Qed.
Lemma payout_safe e c x c' a : payout_ e c = Some (x, c') -> safe c -> e_user e = Some a -> safe c' /\ (forall h, unlocked a h c -> unlocked a h c') /\ tokens (c_vars c') = tokens (c_vars c).
Proof.
  intros H (HW & SO & CB) U. pose proof H as K. apply k_payout in K. pose proof H as P. apply payout_paid in P as (u & p & f0 & f1 & F & G & _ & _ & T & S).
  apply payout_moved in H as ((W1 & T1 & _ & SU & _) & SA & _); auto. split; [split; [exact W1|split]|split; auto].
  - intros j. rewrite SU. specialize (SO j). lia.
  - intros j. rewrite T. specialize (K (at2 j (tokens (c_vars c)))). specialize (S (at2 j (tokens (c_vars c)))). specialize (CB j). lia.
  - intros h UH u' F'. destruct (SA u F) as (u2 & F2 & _ & _ & UE). rewrite U in F2. rewrite F2 in F'. injection F' as <-. rewrite UE. apply UH. rewrite <- U. exact F.
Qed.
Lemma all_rel dry dry' e e' c a out c' : rem_all_liquid dry e c = Some (out, c') -> safe c -> e_user e = Some a -> e_user e' = Some a -> e_version e' = e_version e -> (dry' = false -> unlocked a (e_height e') c) ->
  exists c0 c2', payout_ e c = Some (tt, c0) /\ rem_all_liquid dry' e' c = Some (out, c2') /\ paid_out dry' out c0 c2' /\ (forall j, at2 j out < 2 ^ 128).
Proof.
  intros H SF U U' EV UL. unfold rem_all_liquid in H. step H. destruct x. pose proof H0 as P0. apply (payout_safe _ _ _ _ a) in P0 as (SF0 & UU0 & T0); auto. step H.
  destruct (each_rel dry dry' false (0, 0) e e' c0 c0 a x c1 H1 ltac:(now intros []) eq_refl SF0 U U' EV ltac:(auto)) as (d1 & r1 & E1 & O1 & V1 & SF1 & UU1 & (T1 & L1 & B1)).
  assert (XB : forall j, at2 j x < 2 ^ 128). { intros j. rewrite O1. specialize (L1 j). destruct SF0 as (_ & _ & CB). specialize (CB j). assert (at2 j (0, 0) = 0) by now destruct j. lia. }
  assert (XB' : forall j, at2 j x < 2 ^ 256) by (intros j; apply N.lt_trans with (2 ^ 128); [apply XB|reflexivity]).
  destruct (each_rel dry dry' true x e e' c1 d1 a out c' H XB' V1 SF1 U U' EV ltac:(auto)) as (d2 & r2 & E2 & O2 & V2 & SF2 & UU2 & (T2 & L2 & B2)).
  destruct (each_rel dry false false (0, 0) e (mk_env (Some a) (match find (Some a) (users (c_vars c0)) with Some u => u_unlock u | None => 0 end) None [] (e_version e)) c0 c0 a x c1 H1 ltac:(now intros []) eq_refl SF0 U eq_refl eq_refl) as (g1 & s1 & G1 & GO1 & GV1 & GF1 & GU1 & (GT1 & GL1 & GB1)).
  { intros _ u FU. cbn [CtrModel.e_height]. rewrite FU. lia. }
  destruct (each_rel dry true true x e e c1 g1 a out c' H XB' GV1 GF1 U U eq_refl ltac:(discriminate)) as (g2 & s2 & G2 & GO2 & _ & _ & _ & (GT2 & GL2 & _)).
  exists c0, d2. split; auto. split; [|split].
  - unfold rem_all_liquid. rewrite <- (t_payout e e' c) in H0 by congruence. rewrite (bind_ok _ _ _ _ _ _ H0), (bind_ok _ _ _ _ _ _ E1). exact E2.
  - split; [congruence|]. assert (OJ : forall j, at2 j out <= c_bal c0 (at2 j (tokens (c_vars c0)))).
    { intros j. rewrite GO2, GO1. specialize (GB1 j). specialize (GL2 j). rewrite GT1 in GL2. assert (at2 j (0, 0) = 0) by now destruct j. lia. }
    split; auto. intros j. specialize (B1 j). specialize (B2 j). rewrite T1 in B2. rewrite O2, O1. assert (at2 j (0, 0) = 0) by now destruct j. destruct dry'; lia.
  - intros j. rewrite GO2, GO1. specialize (GB1 j). specialize (GL2 j). rewrite GT1 in GL2. assert (at2 j (0, 0) = 0) by now destruct j. destruct SF0 as (_ & _ & CB). specialize (CB j). lia.
Qed.
Lemma total_paid_paid cur l : total_paid cur l = paid cur l. Proof. reflexivity. Qed.
Lemma paid_app cur l1 l2 : paid cur (l1 ++ l2) = paid cur l1 + paid cur l2.
Proof. induction l1 as [|x l1 IH]; cbn [paid fold_right app]; [reflexivity|]. fold (paid cur (l1 ++ l2)). fold (paid cur l1). rewrite IH. lia. Qed.
Lemma paid_rev cur l : paid cur (rev l) = paid cur l.
Proof. induction l as [|x l IH]; [reflexivity|]. cbn [rev]. rewrite paid_app, IH. unfold paid. cbn [fold_right]. lia. Qed.
Lemma happens_paid v bal e m p mt y : happens exec (v, bal) (Call e m) p mt y -> e_deposit e = None -> forall cur, snd y cur + paid cur p = bal cur.
Proof.
  intros H D cur. inversion H as [s b e' me c E|]; subst. pose proof (exec_keeps m e _ _ _ E cur) as K. unfold begin in K. rewrite D in K. cbn [c_bal c_sent paid fold_right] in K. cbn [snd]. rewrite paid_rev. lia.
Qed.
Lemma begin_safe e (v : vars) bal : e_deposit e = None -> begin e v bal = mk_ctr v bal [] []. Proof. unfold begin. now intros ->. Qed.
(** one removal of the wallet, compared with the round of the dry run *)
Lemma wallet_step i n e e' a c1 c0 c2 out0 : c_vars c2 = c_vars c0 -> safe c2 -> safe c0 -> e_user e = Some a -> e_user e' = Some a -> e_version e' = e_version e -> (forall j, at2 j out0 < 2 ^ 128) ->
  (forall u, find (Some a) (users (c_vars c2)) = Some u -> at2 i (u_bal u) = n) -> (exists u, find (Some a) (users (c_vars c2)) = Some u) ->
  (n <> 0 -> exists r, rem_liquid i n false e c2 = Some (r, c1)) -> (n = 0 -> c1 = c2) ->
  exists out' c0' d, each (fun i n => rem_liquid i n true) i out0 e' c0 = Some (out', c0') /\ (forall j, at2 j out' = at2 j out0 + at2 j d) /\ c_vars c0' = c_vars c1 /\ safe c0' /\ safe c1 /\ paid_out false d c2 c1.
Proof.
  intros EC S2 S0 U U' EV OB UN (u & F) RM NM. specialize (UN u F). unfold each. rewrite EC in F.
  rewrite (bind_ok _ _ _ _ _ _ (get_user_ok e' c0 u ltac:(now rewrite U'))). cbv zeta. rewrite UN. destruct (N.ltb_spec 0 n).
  - destruct RM as (r & RM); [lia|]. destruct (reml_rel false true i n e e' c2 c0 a r c1 RM (eq_sym EC) S0 U U' EV ltac:(discriminate)) as (c0' & R & RV & SF & _ & (_ & OL & _)).
    assert (RB : forall j, at2 j r < 2 ^ 128) by (intros j; specialize (OL j); destruct S0 as (_ & _ & CB); specialize (CB j); lia).
    assert (ULK : unlocked a (e_height e) c2). { intros u' F'. unfold rem_liquid in RM. step RM. simp H0. step RM. apply get_user_inv in H0 as (-> & F2). rewrite U, F' in F2. injection F2 as <-. step RM. step H0. simp H1. simp H0. now apply N.leb_le. }
    destruct (reml_rel false false i n e e c2 c2 a r c1 RM eq_refl S2 U U eq_refl ltac:(auto)) as (c1' & R1 & _ & SF1 & _ & P1). rewrite RM in R1. injection R1 as <-.
    rewrite (bind_ok _ _ _ _ _ _ R). assert (BB : forall j, at2 j out0 + at2 j r < 2 ^ 256). { intros j. specialize (OB j). specialize (RB j). apply N.lt_trans with (2 ^ 128 + 2 ^ 128); [lia|reflexivity]. }
    rewrite (bind_ok _ _ _ _ _ _ (uadd_ok _ _ e' c0' (BB false))), (bind_ok _ _ _ _ _ _ (uadd_ok _ _ e' c0' (BB true))). eexists. exists c0', r. split; [reflexivity|]. split; [intros []; reflexivity|]. auto.
  - rewrite NM in * by lia. exists out0, c0, (0, 0). split; [reflexivity|]. split; [intros []; cbn; lia|]. split; auto. split; auto. split; auto. split; auto. split; intros []; cbn; lia.
Qed.
Lemma in_order_app e : forall l1 x l2 p z, in_order e x (l1 ++ l2) p z -> exists y p1 p2, in_order e x l1 p1 y /\ in_order e y l2 p2 z /\ p = p1 ++ p2.
Proof.
  induction l1 as [|m l1 IH]; intros x l2 p z H; [exists x, [], p; split; [constructor|auto]|]. cbn [app] in H. inversion H as [|x' m' ms p1 mt y q z' HP HI]; subst. apply IH in HI as (w & p2 & p3 & I1 & I2 & ->).
  exists w, (p1 ++ p2), p3. split; [econstructor; eauto|]. split; auto. now rewrite app_assoc.
Qed.
Lemma in_order_one e x m p z : in_order e x [m] p z -> exists mt, happens exec x (Call e m) p mt z.
Proof. intros H. inversion H as [|x' m' ms p1 mt y q z' HP HI]; subst. inversion HI; subst. rewrite app_nil_r. eauto. Qed.
Definition maybe (i : bool) (n : N) : list method := if n =? 0 then [] else [RemLiquid i n false].
Lemma in_order_maybe e v bal i n p z : e_deposit e = None -> in_order e (v, bal) (maybe i n) p z ->
  exists c1, z = (c_vars c1, c_bal c1) /\ (n <> 0 -> exists r, rem_liquid i n false e (mk_ctr v bal [] []) = Some (r, c1)) /\ (n = 0 -> c1 = mk_ctr v bal [] []) /\ forall cur, c_bal c1 cur + paid cur p = bal cur.
Proof.
  intros D H. unfold maybe in H. destruct (N.eqb_spec n 0) as [Z|Z].
  - inversion H; subst. exists (mk_ctr v bal [] []). split; auto. split; [congruence|]. split; auto. intros cur. cbn. lia.
  - apply in_order_one in H as (mt & H). pose proof (happens_paid _ _ _ _ _ _ _ H D) as HP. inversion H as [s b e' me c E|]; subst. exists c. split; auto. split; [|split; [congruence|exact HP]]. intros _. cbn [exec] in E. step E. injection E as <-. rewrite begin_safe in H0 by auto. eauto.
Qed.
Lemma wallet_rel e e' v bal a u p y : in_order e (v, bal) (wallet_remove (u_bal u)) p y -> find (Some a) (users v) = Some u -> safe (mk_ctr v bal [] []) -> e_deposit e = None -> e_user e = Some a -> e_user e' = Some a -> e_version e' = e_version e ->
  exists c0 out c', payout_ e (mk_ctr v bal [] []) = Some (tt, c0) /\ rem_all_liquid true e' (mk_ctr v bal [] []) = Some (out, c') /\ forall j, snd y (at2 j (tokens v)) + at2 j out = c_bal c0 (at2 j (tokens v)).
Proof.
  intros H F SF D U U' EV. assert (WR : wallet_remove (u_bal u) = [Payout] ++ maybe false (fst (u_bal u)) ++ maybe true (snd (u_bal u))) by (unfold wallet_remove, maybe; cbn [flat_map at2]; now rewrite app_nil_r).
  rewrite WR in H. apply in_order_app in H as (y1 & p1 & p2 & H1 & H2 & ->). apply in_order_app in H2 as (y2 & p2' & p3 & H2 & H3 & ->).
  apply in_order_one in H1 as (mt & H1). inversion H1 as [s b ee me c0 E|]; subst. cbn [exec] in E. rewrite begin_safe in E by auto. clear H1.
  pose proof E as PS. apply (payout_safe _ _ _ _ a) in PS as (SF0 & _ & T0); auto. cbn [c_vars] in T0.
  destruct (payout_moved _ _ _ _ (proj1 SF) E) as (_ & SU & _). rewrite U in SU. destruct (SU u F) as (u1 & F1 & _ & UB1 & _). clear SU.
  apply in_order_maybe in H2 as (c1 & -> & R1 & N1 & P1); auto. set (b0 := mk_ctr (c_vars c0) (c_bal c0) [] []) in *. assert (SB0 : safe b0) by exact SF0.
  assert (Z0 : forall j, at2 j (0, 0) < 2 ^ 128) by now intros [].
  destruct (wallet_step false (fst (u_bal u)) e e' a c1 c0 b0 (0, 0) eq_refl SB0 SF0 U U' EV Z0) as (o1 & d1 & r1 & E1 & O1 & V1 & S1 & S1' & (T1 & L1 & B1)); auto.
  { intros u' F'. cbn [b0 c_vars] in F'. rewrite F1 in F'. injection F' as <-. now rewrite UB1. }
  { exists u1. exact F1. }
  apply in_order_maybe in H3 as (c2 & -> & R2 & N2 & P2); auto. set (b1 := mk_ctr (c_vars c1) (c_bal c1) [] []) in *. assert (SB1 : safe b1) by exact S1'.
  assert (O1B : forall j, at2 j o1 < 2 ^ 128). { intros j. rewrite O1. specialize (L1 j). destruct SB0 as (_ & _ & CB). specialize (CB j). assert (at2 j (0, 0) = 0) by now destruct j. lia. }
  (* the user after the first removal *)
  assert (F2 : exists u2, find (Some a) (users (c_vars c1)) = Some u2 /\ snd (u_bal u2) = snd (u_bal u)).
  { destruct (N.eq_dec (fst (u_bal u)) 0) as [Z|NZ]; [rewrite N1 by auto; exists u1; cbn [b0 c_vars]; split; [exact F1|now rewrite UB1]|]. destruct (R1 NZ) as (r & RM). unfold rem_liquid in RM. step RM. simp H. step RM. apply get_user_inv in H as (-> & FF). step RM. step H. simp H0. simp H. step RM. simp H. apply N.leb_le in E3.
    rewrite U in FF. cbn [b0 c_vars] in FF. rewrite F1 in FF. injection FF as <-.
    apply rem_moved in RM as (_ & _ & UU); [|exact (proj1 SF0)|intros u' F'; rewrite U in F'; cbn [b0 c_vars] in F'; rewrite F1 in F'; injection F' as <-; auto]. rewrite U in UU. destruct (UU u1 F1) as (u2 & F2 & _ & _ & UB2). exists u2. split; [exact F2|]. rewrite UB2. cbn [upd2 snd]. now rewrite UB1. }
  destruct F2 as (u2 & F2 & UB2).
  destruct (wallet_step true (snd (u_bal u)) e e' a c2 d1 b1 o1 (eq_sym V1) SB1 S1 U U' EV O1B) as (o2 & d2 & r2 & E2 & O2 & _ & _ & _ & (T2 & L2 & B2)); auto.
  { intros u' F'. cbn [b1 c_vars] in F'. rewrite F2 in F'. injection F' as <-. exact UB2. }
  { exists u2. exact F2. }
  exists c0, o2, d2. split; auto. split.
  - unfold rem_all_liquid. rewrite <- (t_payout e e' _) in E by congruence. rewrite (bind_ok _ _ _ _ _ _ E), (bind_ok _ _ _ _ _ _ E1). exact E2.
  - intros j. specialize (B1 j). specialize (B2 j). cbn [b0 b1 c_vars c_bal] in *. rewrite T1 in B2. rewrite T0 in B1, B2. cbn [snd]. rewrite O2, O1. assert (at2 j (0, 0) = 0) by now destruct j. lia.
Qed.
(** ** Volumes *)
Lemma loop_volume i chunk e : forall n left total c left' total' c', W (c_vars c) -> rates_ok (c_vars c) -> left < 2 ^ 256 -> total < 2 ^ 256 -> at2 (negb i) (volume (c_vars c)) < 2 ^ 256 ->
  trade_loop n i chunk left total e c = Some ((left', total'), c') ->
    at2 (negb i) (volume (c_vars c')) + total + fees_paid (negb i) (c_vars c) = at2 (negb i) (volume (c_vars c)) + total' + fees_paid (negb i) (c_vars c') /\ fees_paid i (c_vars c') = fees_paid i (c_vars c) /\
    at2 i (volume (c_vars c')) = at2 i (volume (c_vars c)) /\ at2 (negb i) (volume (c_vars c')) < 2 ^ 256 /\ c_sent c' = c_sent c /\ fees_paid (negb i) (c_vars c) <= fees_paid (negb i) (c_vars c').
Proof.
  induction n as [|n IH]; intros left total c left' total' c' HW RO LB TB VB H; cbn [trade_loop] in *.
  { injection H as <- <- <-. repeat split; auto; lia. }
  destruct (0 <? left); [|injection H as <- <- <-; repeat split; auto; lia]. cbv zeta in *. step H. simp H0. step H.
  pose proof HW as (_ & PO & _). apply best_inv in H0 as (-> & B); auto; [|lia]. destruct x as [(m, ((t, fee), g))|]; [|exact (IH _ _ _ _ _ _ HW RO LB TB VB H)].
  destruct B as [|(k & p & q & E & G & Q & GP)]; [discriminate|]. injection E as -> <-. cbn [snd] in GP. rewrite ?N.add_0_l in *.
  assert (PP : pool_ok p) by (eapply W_pool_at; eauto). assert (RR : p_rate p < 2 ^ 64) by (unfold rates_ok in RO; rewrite Forall_forall in RO; apply RO; eapply nth_error_In, G).
  pose proof Q as QI. apply quote_inv in QI as (_ & L1 & L2 & L3 & _ & _ & _ & _); auto; [|lia].
  step H. apply get_pool_inv in H0 as (-> & G'). rewrite Nat2N.id, G in G'. injection G' as <-. destruct (PP i) as (A1 & A2 & A3 & A4). destruct (PP (negb i)) as (B1 & B2 & B3 & B4).
  step H. apply uadd_inv in H0 as (-> & C1 & ->); auto; [|lia].
  step H. apply uadd_inv in H0 as (-> & C4 & ->); auto; [|lia]. step H. apply uadd_inv in H0 as (-> & C2 & ->); auto; [|lia].
  step H. apply usub_inv in H0 as (_ & -> & ->); auto; [|lia]. step H. apply uadd_inv in H0 as (-> & C3 & ->); auto; [|lia]. step H. apply usub_inv in H0 as (_ & -> & ->); auto; [|lia].
  step H. simp H0. rewrite Nat2N.id in *.
  set (p' := mk_pool (upd2 (negb i) (at2 (negb i) (p_bal p) - t) (upd2 i (at2 i (p_bal p) + N.min chunk left) (p_bal p))) (p_tot p) (p_rate p) (upd2 (negb i) (at2 (negb i) (p_paid p) + fee) (p_paid p)) (p_claimed p)) in *.
  match type of H with trade_loop _ _ _ _ _ _ ?cc = _ => set (c1 := cc) in * end.
  assert (W1 : W (c_vars c1)).
  { destruct c as [v bal snt mt]. destruct v as [tk s vol l]. cbn [c_vars tokens state users volume c_bal c_sent c_minted] in *. unfold c1. cbn [c_vars]. rewrite <- (Nat2N.id k). apply (Wpool tk s vol l (N.of_nat k) p p'); auto.
      + rewrite Nat2N.id. exact G.
      + intros j. unfold p'. cbn [p_tot p_rate p_claimed p_paid p_bal]. destruct (PP j) as (Q1 & Q2 & Q3 & Q4). destruct i, j; cbn [Bool.eqb negb at2 upd2 fst snd] in *; (split; [lia|]); (split; [lia|]); (split; [lia|]); lia.
      + intros j. unfold p'. cbn [p_paid]. destruct i, j; cbn; lia. }
  assert (R1 : rates_ok (c_vars c1)) by (unfold rates_ok, c1; cbn [c_vars state]; apply upd_Forall; auto).
  assert (S2 : fees_paid (negb i) (c_vars c1) = fees_paid (negb i) (c_vars c) + fee).
  { pose proof (sum_paid (negb i) (c_vars c) k p p' G) as Y. unfold p' in Y at 2. cbn [p_paid] in Y. rewrite at2_same in Y. unfold c1, fees_paid at 1. cbn [c_vars state]. lia. }
  assert (S3 : fees_paid i (c_vars c1) = fees_paid i (c_vars c)).
  { pose proof (sum_paid i (c_vars c) k p p' G) as Y. unfold p' in Y at 2. cbn [p_paid] in Y. rewrite at2_other' in Y. unfold c1, fees_paid at 1. cbn [c_vars state]. lia. }
  assert (V1 : at2 (negb i) (volume (c_vars c1)) = at2 (negb i) (volume (c_vars c)) + t) by (unfold c1; cbn [c_vars volume]; now rewrite at2_same).
  assert (V2 : at2 i (volume (c_vars c1)) = at2 i (volume (c_vars c))) by (unfold c1; cbn [c_vars volume]; now rewrite at2_other').
  assert (SS : c_sent c1 = c_sent c) by reflexivity.
  destruct (IH (left - N.min chunk left) (total + (t - fee)) c1 left' total' c') as (Q2 & Q3 & Q4 & Q5 & Q6 & Q7); auto; try lia.
  split; [lia|]. split; [lia|]. split; [lia|]. split; [exact Q5|]. split; [rewrite Q6; exact SS|]. lia.
Qed.
Lemma still_sum c c' k : still c c' -> fees_paid k (c_vars c') = fees_paid k (c_vars c) /\ volume (c_vars c') = volume (c_vars c).
Proof.
  intros (V & P). split; auto. unfold fees_paid. revert P. generalize (state (c_vars c')) (state (c_vars c)). clear. induction l as [|p l IH]; intros [|q m] E; try discriminate; [reflexivity|]. cbn [map] in E. injection E as E1 E2. rewrite !sum_cons, E1. f_equal. auto.
Qed.
(** an event adds to the volume of a token what trades pay of it and the fees they leave *)
Lemma event_volume v bal ev p m y : happens exec (v, bal) ev p m y -> W v -> rates_ok v -> (forall i, at2 i (volume v) < 2 ^ 256) ->
  match ev with Call e _ => forall cur n, e_deposit e = Some (cur, n) -> n < 2 ^ 256 | _ => True end ->
  (forall i, at2 i (volume (fst y)) < 2 ^ 256) /\ forall k, at2 k (volume (fst y)) + fees_paid k v = at2 k (volume v) + fees_paid k (fst y) + trade_pays k (at2 k (tokens v)) (ev, p, m) /\ fees_paid k v <= fees_paid k (fst y).
Proof.
  intros H HW RO VB DB. inversion H as [s b e me c E|s b cur n]; subst; [|cbn [fst]; split; auto; intros k; unfold trade_pays; cbn; lia].
  cbn [fst]. assert (TR : (exists i dst mn n, me = Trade i dst mn n) \/ (forall i dst mn n, me <> Trade i dst mn n)) by (destruct me; [right|right|right|right|right|left]; eauto; discriminate).
  destruct TR as [(i & dst & mn & n & ->)|NT].
  - cbn [exec] in E. apply trade_iff in E as (amount & x1 & x2 & chunk & total & c1 & NP & D & U1 & U2 & U3 & L & M & TP & S). cbn [begin c_vars] in *.
    apply loop_volume in L as (L1 & L2 & L3 & L4 & L5 & L6); auto; [|eapply DB; eauto|reflexivity]. cbn [begin c_vars c_sent] in *. apply send_inv in S as [(-> & _)|(B & LB & ->)]; [lia|]. cbn [c_vars c_sent].
    split; [intros j; destruct (Bool.eqb_spec i j) as [<-|NJ]; [rewrite L3; auto|assert (j = negb i) by (destruct i, j; cbn; congruence); subst j; auto]|].
    intros k. unfold trade_pays. cbn [ev_of paid_by fst snd]. destruct (Bool.eqb_spec (negb i) k) as [<-|NK].
    + rewrite L5. cbn [rev app total_paid fold_right pm_currency pm_amount]. rewrite addr_eqb_refl. lia.
    + assert (k = i) by (destruct i, k; cbn in *; congruence). subst k. lia.
  - apply exec_quiet in E; auto. split; [intros j; destruct (still_sum _ _ j E) as (_ & ->); apply VB|]. intros k. destruct (still_sum _ _ k E) as (-> & ->). cbn [begin c_vars]. unfold trade_pays. cbn [ev_of fst]. destruct me; try lia. destruct (NT i address min_trade num_iter eq_refl).
Qed.
