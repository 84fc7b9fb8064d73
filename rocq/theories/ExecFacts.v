(** The theorems about contract calls *)
Require Import List Arith NArith ZArith Bool Lia.
From Verif Require Import BytesLib OrdLib VarModel InstrModel InstrSpec EngineModel EngineSpec ExecModel ExecSpec EngineProofs EngineUpper ExecProofs EngineVis.
Import ListNotations.
Open Scope N_scope.

(** operands that the packed form drops are never looked at *)
Lemma exec_op_canon bk x rc rd i : exec_op bk x rc rd (canon i) = exec_op bk x rc rd i.
Proof.
  unfold exec_op at 1 2. cbv zeta. change (i_code (canon i)) with (i_code i).
  destruct i as [c f a b d e]. cbn [i_code].
  repeat match goal with
         | |- (if ?u =? ?k then _ else _) = _ => destruct (N.eqb_spec u k) as [->|_]; [reflexivity|]
         end.
  reflexivity.
Qed.
Lemma exec_canon bk x rc rd i s : exec bk x rc rd (canon i) s = exec bk x rc rd i s.
Proof. unfold exec. rewrite exec_op_canon. auto. Qed.

Lemma sub_exact L R : L < 2 ^ 256 -> R < 2 ^ 256 -> (L + 2 ^ 256 - R) mod 2 ^ 256 <= L -> (L + 2 ^ 256 - R) mod 2 ^ 256 + R = L.
Proof.
  intros HL HR LE. set (m := 2 ^ 256) in *. assert (0 < m) by (unfold m; lia). clearbody m.
  destruct (N.le_gt_cases R L).
  - replace (L + m - R) with ((L - R) + 1 * m) by lia. rewrite N.mod_add by lia. rewrite N.mod_small by lia. lia.
  - rewrite N.mod_small in LE by lia. lia.
Qed.
Lemma add_exact L R : L < 2 ^ 256 -> R < 2 ^ 256 -> L <= (L + R) mod 2 ^ 256 -> (L + R) mod 2 ^ 256 = L + R.
Proof.
  intros HL HR LE. set (m := 2 ^ 256) in *. assert (0 < m) by (unfold m; lia). clearbody m.
  destruct (N.lt_ge_cases (L + R) m).
  - apply N.mod_small. auto.
  - replace (L + R) with ((L + R - m) + 1 * m) in LE |- * by lia. rewrite N.mod_add in * by lia. rewrite N.mod_small in * by lia. lia.
Qed.
Lemma mul_exact L R : L = 0 \/ R <= MAX256 / L -> (L * R) mod 2 ^ 256 = L * R.
Proof.
  intros H. apply N.mod_small. assert (MAX256 < 2 ^ 256) as LM by (unfold MAX256; lia).
  destruct H as [->|H]; [simpl; lia|]. destruct (N.eq_dec L 0) as [->|NZ]; [simpl; lia|].
  pose proof (N.mul_div_le MAX256 L NZ). assert (L * R <= L * (MAX256 / L)) by (apply N.mul_le_mono_l; auto). lia.
Qed.
Lemma op_add_exact i L R g D : catch i = true -> L < 2 ^ 256 -> R < 2 ^ 256 -> op_add i L R = Some (g, D) -> D = L + R.
Proof.
  intros CA HL HR. pose proof (add_exact L R HL HR) as X. unfold op_add. rewrite CA.
  set (d := (L + R) mod 2 ^ 256) in *. clearbody d. rewrite andb_true_l. destruct (N.ltb_spec d L) as [LT|GE]; intros H; [discriminate|].
  assert (D = d) by congruence. subst. auto.
Qed.
Lemma op_sub_exact i L R g D : catch i = true -> L < 2 ^ 256 -> R < 2 ^ 256 -> op_sub i L R = Some (g, D) -> D + R = L.
Proof.
  intros CA HL HR. pose proof (sub_exact L R HL HR) as X. unfold op_sub. rewrite CA.
  set (d := (L + 2 ^ 256 - R) mod 2 ^ 256) in *. clearbody d. rewrite andb_true_l. destruct (N.ltb_spec L d) as [LT|GE]; intros H; [discriminate|].
  assert (D = d) by congruence. subst. auto.
Qed.
Lemma op_mul_exact i v L R g D : catch i = true -> 1 <= v -> op_mul v i L R = Some (g, D) -> D = L * R.
Proof.
  intros CA VE. pose proof (mul_exact L R) as X. unfold op_mul. rewrite CA, (proj2 (N.leb_le _ _) VE).
  set (d := (L * R) mod 2 ^ 256) in *. clearbody d. set (q := MAX256 / L) in *. clearbody q. rewrite andb_true_l.
  destruct (negb (L =? 0) && (q <? R)) eqn:OV; intros H; [discriminate|].
  assert (D = d) by congruence. subst. apply X. destruct (N.eqb_spec L 0); auto. rewrite andb_true_l in OV. apply N.ltb_ge in OV. auto.
Qed.

Section FACTS.
  Variable E : env.
  Notation bk := (e_backend E).
  Hypothesis bk_ok : backend_ok bk.
  Hypothesis fee : 0 < e_fee_exec E.
  Variables (depth : nat) (depends : list (bytes * addr)).
  Notation run := (run bk (e_ext E) (remote_call E depth depends) (read_contract E)).
  Notation step := (step bk (e_ext E) (remote_call E depth depends) (read_contract E)).
  Notation exec := (exec bk (e_ext E) (remote_call E depth depends) (read_contract E)).
  Lemma run_ends s : mints_ok s -> st_ok s -> s_limit s < e_fee_exec E * N.of_nat depth -> run (fuel_of (s_limit s)) s <> Fuel.
  Proof.
    intros M O L H.
    assert (hb (IU bk (act E []) s) (TU bk (act E []) s) s (run (fuel_of (s_limit s))) any) as K.
    { apply hu_run with (lim := s_limit s); auto.
      - intros. apply rc_ok; auto. lia.
      - intros. apply hu_read_contract; auto.
      - lia.
      - apply Nat.lt_0_succ.
      - pose proof (fuel_enough (s_limit s)). lia. }
    unfold hb in K. rewrite H in K. auto.
  Qed.
  Lemma run_more n k s : run n s <> Fuel -> run (n + k) s = run n s.
  Proof.
    revert s. induction n as [|n IH]; intros s H.
    - cbn [EngineModel.run] in *. unfold bind, get in *. destruct (s_frames s) eqn:F; [|congruence].
      destruct k; cbn [plus EngineModel.run]; unfold bind, get; rewrite F; auto.
    - cbn [plus EngineModel.run] in *. unfold bind, get in *. destruct (s_frames s); auto.
      destruct (step s); auto.
  Qed.
  Lemma steps_inv n : forall s s', steps step n s s' -> mints_ok s -> st_ok s -> s_limit s < e_fee_exec E * N.of_nat depth ->
    IU bk (act E []) s s' /\ s_gas s + INSTR_COST * N.of_nat n <= s_gas s' /\ ((0 < n)%nat -> s_gas s' <= s_limit s').
  Proof.
    induction n as [|n IH]; intros s s' H M O L; inversion H as [|? ? ? ? E1 E2]; subst.
    - split; [apply IU_refl; auto|]. split; lia.
    - assert (hb (IU bk (act E []) s) (TU bk (act E []) s) s step (fun _ s' => s_gas s + INSTR_COST <= s_gas s' /\ s_gas s' <= s_limit s')) as K.
      { apply hu_step with (lim := s_limit s); auto.
        - intros. apply rc_ok; auto. lia.
        - intros. apply hu_read_contract; auto.
        - lia. }
      unfold hb in K. rewrite E1 in K. destruct K as (K & G1 & G2).
      assert (s_limit s2 = s_limit s) as LE. { destruct K as [F]. unfold fixed in F. congruence. }
      destruct (IH s2 s' E2) as (K2 & G3 & G4); [destruct K; auto|destruct K; auto|lia|].
      split; [eapply IU_trans; eauto|]. split; [lia|]. intros _.
      destruct n as [|n]; [|apply G4; lia]. inversion E2; subst. auto.
  Qed.
  Lemma view_kept n s s' cur : steps step n s s' -> mints_ok s -> st_ok s -> s_limit s < e_fee_exec E * N.of_nat depth ->
    s_bal s = [] -> s_outs s = [] ->
    match lfind addr_eqb cur (s_bal s') with
    | None => out_sum cur (s_outs s') = 0
    | Some b => exists d, b + out_sum cur (s_outs s') + d = balance_of bk (s_world s) (s_contract s) cur
                          /\ spent (s_world s) (s_contract s) cur + d <= spent (s_world s') (s_contract s) cur
    end.
  Proof.
    intros H M O L B0 O0. destruct (steps_inv n s s' H M O L) as (K & _). pose proof (iu_view _ _ _ _ K cur) as V.
    rewrite B0, O0 in V. simpl in V. destruct (lfind addr_eqb cur (s_bal s')); auto. destruct V as (d & V & D). exists d. split; auto. lia.
  Qed.
  Lemma begin_const ip s s' a o : begin ip s = Ok tt s' -> a < MEM_STACK -> cell s' (LMem a) = Some o -> is_const o.
  Proof.
    unfold begin, bind, get. destruct (negb (s_init s)); [discriminate|]. destruct (s_frames s); [|discriminate].
    unfold modify. intros H L C. injection H as <-. simpl in C. apply (aget_in _ Ncompare_total) in C. apply in_map_iff in C as ((b & p) & E1 & C).
    simpl in E1. destruct (N.ltb_spec b MEM_STACK); injection E1 as <- <-; [|lia]. destruct p as [? ? []]. reflexivity.
  Qed.
  Lemma vis_cell s a v : a < MEM_STATIC -> visible bk s a = Some v ->
    exists o, cell s (LMem a) = Some o /\ f_deleted (o_fl o) = false /\ o_val o = v.
  Proof.
    intros L. unfold visible. destruct (cell s (LMem a)) as [o|].
    - destruct (f_deleted (o_fl o)) eqn:D; [discriminate|]. intros [= <-]. eauto.
    - destruct (N.leb_spec MEM_STATIC a); [lia|discriminate].
  Qed.
  Lemma context_kept ip n s0 s s' a v : begin ip s0 = Ok tt s -> steps step n s s' ->
    mints_ok s0 -> st_ok s0 -> s_limit s0 < e_fee_exec E * N.of_nat depth -> a < MEM_STACK -> visible bk s a = Some v ->
    (match v with VArray _ _ => False | _ => True end -> visible bk s' a = Some v) /\
    (forall b k, v = VArray b k -> exists k', visible bk s' a = Some (VArray b k') /\ k' <= k /\
       forall i u, i < k' -> visible_at s a i = Some u -> visible_at s' a i = Some u).
  Proof.
    intros B ST M O L LA V.
    assert (mints_ok s /\ st_ok s /\ s_limit s = s_limit s0) as (M1 & O1 & L1).
    { pose proof (ik_begin bk (act E []) s0 s0 ip) as K. unfold hb in K. rewrite B in K.
      destruct K as ([] & _); [apply IK_refl; auto|]. auto. }
    destruct (steps_inv n s s' ST M1 O1) as (K & _); [lia|].
    assert (a < MEM_STATIC) as LS by (eapply N.lt_trans; [exact LA|vm_compute; reflexivity]).
    destruct (vis_cell s a v LS V) as (o & C & D & VO).
    destruct (iu_cell _ _ _ _ K a o LA C (begin_const _ _ _ _ _ B LA C)) as (o' & C' & _ & D' & LE & EN).
    assert (visible bk s' a = Some (o_val o')) as VN. { unfold visible. rewrite C', D', D. auto. }
    rewrite VN. split.
    - intros NA. destruct LE as [->|(b & m & m' & X & _)]; [congruence|]. rewrite X in VO. subst v. contradiction.
    - intros b k ->. assert (exists k', o_val o' = VArray b k' /\ k' <= k) as (k' & VK & LK).
      { destruct LE as [EQ|(b' & m & m' & X & Y & Z)].
        - exists k. rewrite EQ. auto with arith. split; [auto|lia].
        - rewrite VO in X. injection X as -> ->. eauto. }
      exists k'. rewrite VK. repeat split; auto. intros i u LI. unfold visible_at.
      destruct (cell s (LEnt a i)) as [e|] eqn:CE; [|discriminate].
      destruct (EN b k' i VK LI ltac:(discriminate) e CE) as (e' & CE' & VE & DE). rewrite CE', DE, VE. auto.
  Qed.

  (** arithmetic *)
  Lemma bind_go (m : M unit) s b s' : (m ;;; ret true) s = Ok b s' -> m s = Ok tt s' /\ b = true.
  Proof. intros H. apply bind_ok in H as ([] & s1 & H & K). unfold ret in K. injection K as <- <-. auto. Qed.
  Lemma exec_arith i s s' : exec i s = Ok tt s' -> opflag i CATCH_OVERFLOW = true -> 1 <= s_version s ->
    In (i_code i) [0x20; 0x21; 0x22; 0x23; 0x24] ->
    exists dst lhs rhs L R D,
      operand bk s (i_a i) (opflag i REF_A) = Some dst /\ operand bk s (i_b i) (opflag i REF_B) = Some lhs /\
      operand bk s (i_c i) (opflag i REF_C) = Some rhs /\
      visible bk s lhs = Some (VUint L) /\ visible bk s rhs = Some (VUint R) /\ visible bk s' dst = Some (VUint D) /\
      (L < 2 ^ 256 -> R < 2 ^ 256 -> exact_result (i_code i) L R D).
  Proof.
    intros H CO VE IN. unfold EngineModel.exec in H. apply bind_ok in H as (u1 & s1 & E1 & H).
    unfold add_gas, modify in E1. injection E1 as _ <-. apply bind_ok in H as (b & s2 & EX & H).
    assert (exists f, arith bk i f (set_gas (s_gas s + INSTR_COST) s) = Ok tt s2 /\ b = true /\
              forall L R g D, f L R = Some (g, D) -> L < 2 ^ 256 -> R < 2 ^ 256 -> exact_result (i_code i) L R D) as (f & A & -> & F).
    { assert (catch i = true) as CA by exact CO.
      destruct IN as [C|[C|[C|[C|[C|[]]]]]]; unfold exec_op in EX; rewrite <- C in EX |- *; cbn [N.eqb Pos.eqb] in EX.
      - apply bind_go in EX as (A & ->). exists (op_add i). split; [auto|]. split; [auto|]. intros L R g D H0 HL HR. repeat split; try discriminate.
        intros _. eapply op_add_exact; eauto.
      - apply bind_go in EX as (A & ->). exists (op_sub i). split; [auto|]. split; [auto|]. intros L R g D H0 HL HR. repeat split; try discriminate.
        intros _. eapply op_sub_exact; eauto.
      - apply bind_go in EX as (A & ->). unfold bind, get in A. eexists. split; [exact A|]. split; [auto|]. intros L R g D H0 HL HR. repeat split; try discriminate.
        intros _. eapply op_mul_exact; eauto.
      - apply bind_go in EX as (A & ->). exists op_div.
        split; [auto|]. split; [auto|]. intros L R g D H0 _ _. unfold op_div in H0. destruct (N.eqb_spec R 0); [discriminate|].
        injection H0 as _ <-. repeat split; auto; discriminate.
      - apply bind_go in EX as (A & ->). exists op_mod.
        split; [auto|]. split; [auto|]. intros L R g D H0 _ _. unfold op_mod in H0. destruct (N.eqb_spec R 0); [discriminate|].
        injection H0 as _ <-. repeat split; auto; discriminate. }
    apply arith_vis in A as (dst & lhs & rhs & L & R & g & D & O1 & O2 & O3 & V1 & V2 & FL & V3).
    exists dst, lhs, rhs, L, R, D.
    assert (veq bk s (set_gas (s_gas s + INSTR_COST) s)) as VQ by apply veq_gas.
    rewrite (operand_veq _ _ _ _ _ VQ) in O1. rewrite (operand_veq _ _ _ _ _ VQ) in O2. rewrite (operand_veq _ _ _ _ _ VQ) in O3.
    rewrite (proj1 VQ) in V1. rewrite (proj1 VQ) in V2.
    rewrite (next_vis _ _ _ _ H). do 6 (split; [assumption|]). intros HL HR. exact (F L R g D FL HL HR).
  Qed.
End FACTS.

Section API.
  Variable E : env.
  Notation bk := (e_backend E).
  Hypothesis bk_ok : backend_ok bk.
  Notation none := (fun _ : addr => false).
  Notation IK := (IK bk none). Notation TU := (TU bk none). Notation IU := (IU bk none).
  Lemma ik_api s0 b m a u d args : IK s0 s0 ->
    hb (IK s0) (TU s0) s0 (call_contract E b m a u d args) (fun _ s' => s_gas s' <= s_limit s').
  Proof.
    intros H. unfold call_contract. apply ik_bind; [apply ik_load_binary; auto|]. intros ? s1 H1.
    apply ik_bind; [apply ik_mem; auto with hm|]. intros ? s2 H2. apply ik_bind; [apply ik_mem; auto with hm|]. intros ? s3 H3.
    apply ik_bind; [apply ik_mem; auto with hm|]. intros ? s4 H4. apply ik_bind; [apply ik_mem; auto with hm|]. intros ? s5 H5.
    apply ik_bind; [apply ik_mem; auto with hm|]. intros ? s6 H6.
    apply ik_bind. { destruct d as [(c, n)|]; [|apply ik_ret; auto]. apply ik_mem; auto. intros. apply hm_set_deposit; auto. }
    intros ? s7 H7. apply ik_bind; [apply ik_mem; auto; intros; apply hm_set_args; auto|]. intros ? s8 H8.
    apply hb_get. apply ik_bind; [apply ik_begin; auto|]. intros ? s9 H9.
    apply ik_bind.
    { apply ik_up; auto. destruct H9 as [L9 C9 G9 W9 M9 O9]. apply hu_run with (lim := s_limit s9); auto; try lia.
      - intros. apply hb_throw. eapply IU_TU; eauto using IU_refl.
      - intros. apply hb_throw. eapply IU_TU; eauto using IU_refl.
      - apply Nat.lt_0_succ.
      - rewrite (ik_limit _ _ _ _ H8), L9. pose proof (fuel_enough (s_limit s0)). lia. }
    intros ? s10 H10. eapply hb_conseq; [apply ik_check_gas; auto|]. intros ? ? _ (_ & G). auto.
  Qed.
End API.

Lemma balance_instruction bk d currency s s' : backend_ok bk -> mints_ok s -> st_ok s ->
  read_balance bk d currency s = Ok tt s' ->
  exists cur n, visible bk s currency = Some (VBinary cur) /\ lfind addr_eqb cur (s_bal s') = Some n /\ visible bk s' d = Some (VUint n).
Proof.
  intros B M O H. unfold read_balance in H. apply bind_ok in H as ((cur, n) & s1 & E1 & H). exists cur, n.
  set (lk := fun _ : addr => true).
  pose proof (hu_get_balance_known bk B lk s s currency (IU_refl bk lk s M O)) as K. unfold hb in K. rewrite E1 in K.
  destruct K as (K & L & _). simpl in L, H. split; [|split].
  - unfold get_balance in E1. apply bind_ok in E1 as (b & s2 & E2 & E1).
    apply bind_ok in E1 as (b' & s3 & E3 & E1). unfold to_addr in E3. destruct (_ =? 32); [|discriminate].
    unfold ret in E3. injection E3 as <- <-.
    assert (b = cur) as ->.
    { apply bind_ok in E1 as (s4 & s5 & E4 & E1). injection E4 as <- <-.
      destruct (lfind addr_eqb b (s_bal s2)).
      - unfold ret in E1. apply ok_inj in E1. destruct E1 as (E1 & _). congruence.
      - apply bind_ok in E1 as (u & s6 & E6 & E1). apply bind_ok in E1 as (v & s7 & E7 & E1).
        apply bind_ok in E1 as (u2 & s8 & E8 & E1). unfold ret in E1. apply ok_inj in E1. destruct E1 as (E1 & _). congruence. }
    unfold read_binary in E2. apply bind_ok in E2 as (o & s4 & E4 & E2). apply read_fail_vis in E4. destruct E4 as (_ & E4).
    rewrite E4. destruct (o_val o); try discriminate. unfold ret in E2. apply ok_inj in E2. destruct E2 as (-> & _). auto.
  - assert (ST : st_ok s1) by (destruct K; auto).
    pose proof (hm_write bk B None s1 s1 d (STmp (VUint n))) as W. unfold hb in W. unfold write_val in H. rewrite H in W.
    destruct W as ((R & _) & _); auto.
    + apply inv_refl; auto.
    + destruct R as [R]. unfold rest in R. replace (s_bal s') with (s_bal s1) by congruence. auto.
  - eapply write_uint_vis; eauto.
Qed.
