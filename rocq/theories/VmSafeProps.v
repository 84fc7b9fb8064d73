(** C51, C55: the parts that hold *)
Require Import List Arith NArith ZArith Bool Lia.
From Verif Require Import BytesLib OrdLib VarModel InstrModel EngineModel EngineSpec ExecModel ExecSpec EngineProofs EngineUpper EngineVis ExecCases VmSafeProofs.
Import ListNotations.
Open Scope N_scope.

(** Instructions that cannot touch a destroyed object, by name; the others are COPY, CLONE, GET, SET, PUSH_BACK, POP_BACK,
    CONCAT, RCALL and CREAD. *)
Definition other_codes : list N := [0x02; 0x03; 0x82; 0x83; 0x85; 0x86; 0xA1; 0xC5; 0xC6].
Definition safe_instr (i : instr) : Prop :=
  (i_code i < 256) /\ ~ In (i_code i) other_codes /\
  (** CALL moves the stack pointer by less than a thousandth of the stack *)
  (i_code i = 0x07 -> i_b i <= 2 ^ 20).

Section P.
  Variable bk : backend.
  Variable x : ext.
  Variable remote_call : bytes -> bytes -> N -> M unit.
  Variable read_contract : addr -> bytes -> N -> M unit.
  Notation exec_op := (exec_op bk x remote_call read_contract).
  Notation exec := (exec bk x remote_call read_contract).
  Notation step := (step bk x remote_call read_contract).
  Notation run := (run bk x remote_call read_contract).

  Fixpoint frames_ok (l : list (N * N)) : Prop :=
    match l with [] => True | f :: l => snd f <= 2 ^ 20 * N.of_nat (length l) /\ frames_ok l end.
  Definition G (s : st) : Prop := Forall safe_instr (s_code s) /\ frames_ok (s_frames s) /\ (length (s_frames s) <= MAX_CALL_RECURSION)%nat.
  Definition GP {A} (m : M A) (s : st) : Prop := match m s with Undefined _ => False | Ok _ s' => G s' | _ => True end.

  Lemma G_fr s s' : fr s' = fr s -> G s -> G s'.
  Proof. unfold fr, G. intros H. injection H as -> ->. auto. Qed.
  Lemma GP_pat A (m : M A) s : G s -> Pat m s -> GP m s.
  Proof. unfold GP, Pat. intros H. destruct (m s); auto. intros E. eapply G_fr; eauto. Qed.
  Lemma GP_bind A B (m : M A) (k : A -> M B) s : GP m s -> (forall a s1, m s = Ok a s1 -> G s1 -> GP (k a) s1) -> GP (bind m k) s.
  Proof. unfold GP, bind. intros H K. destruct (m s) as [a s1|s1|s1|]; auto. apply (K a s1 eq_refl H). Qed.

  Lemma GP_jump ip s : G s -> GP (jump ip) s.
  Proof.
    intros (C & F & L). unfold GP, jump, bind, get. destruct (s_frames s) as [|(p, sp) fs] eqn:E; [exact Logic.I|].
    unfold modify. unfold G. simpl. repeat split; auto; try (simpl in F; tauto).
  Qed.
  Lemma GP_next s : G s -> GP next s.
  Proof. intros H. unfold next. apply GP_bind; [apply GP_pat; auto; apply PA_get_frame|]. intros f s1 _ H1. apply GP_jump; auto. Qed.
  Lemma GP_call ip sp s : sp <= 2 ^ 20 -> G s -> GP (call ip sp) s.
  Proof.
    intros Hsp H. unfold call. destruct (STACK_SIZE <=? sp); [exact Logic.I|].
    apply GP_bind; [apply GP_pat; auto; apply PA_get|]. intros s0 s1 E0 H1. injection E0 as <- <-.
    destruct (Nat.leb_spec MAX_CALL_RECURSION (length (s_frames s))) as [Hm|Hm]; [exact Logic.I|].
    apply GP_bind; [apply GP_pat; auto; apply PA_add_gas|]. intros u s2 E2 H2.
    assert (Ef2 : s_frames s2 = s_frames s) by (unfold add_gas, modify in E2; injection E2 as E2; subst s2; reflexivity).
    apply GP_bind; [apply GP_pat; auto; apply PA_get_frame|]. intros f s3 E3 H3.
    assert (Ef3 : s3 = s2 /\ exists fs, s_frames s2 = f :: fs).
    { unfold get_frame, bind, get in E3. destruct (s_frames s2) as [|f0 fs]; [discriminate|]. unfold ret in E3. injection E3 as <- <-. eauto. }
    destruct Ef3 as (-> & fs & Ef3). destruct H3 as (C & F & L). unfold GP, modify, G. cbn [s_code s_frames set_frames].
    rewrite Ef2 in Ef3. rewrite Ef2, Ef3 in *. cbn [length frames_ok fst snd] in *. split; [auto|]. split; [split; [|auto]|lia].
    assert (snd f <= 2 ^ 20 * N.of_nat (length fs)) by tauto.
    pose proof (N.mod_le (snd f + sp) (2 ^ 64) ltac:(discriminate)). change (2 ^ 20) with 1048576 in *. lia.
  Qed.
  Lemma sp_bound s p sp fs : G s -> s_frames s = (p, sp) :: fs -> MEM_STACK + (sp + 1) <= MEM_STATIC.
  Proof.
    intros (_ & F & L) E. rewrite E in *. cbn [length frames_ok fst snd] in *.
    assert (H : sp <= 2 ^ 20 * N.of_nat (length fs)) by tauto. assert (H2 : (length fs <= 999)%nat) by (unfold MAX_CALL_RECURSION in L; lia).
    unfold MEM_STATIC, STACK_SIZE, SEG_SIZE. replace (2 ^ 20) with 1048576 in H by reflexivity. lia.
  Qed.
  Lemma GP_do_ret s : G s -> GP (do_ret bk) s.
  Proof.
    intros H. unfold do_ret. apply GP_bind; [apply GP_pat; auto; apply PA_get_frame|]. intros f s1 E1 H1.
    assert (Ef : exists fs, s_frames s1 = f :: fs).
    { unfold get_frame, bind, get in E1. destruct (s_frames s) as [|f0 fs] eqn:Es; [discriminate|]. unfold ret in E1. injection E1 as <- <-. eauto. }
    destruct Ef as (fs & Ef). destruct f as (p, sp). cbn [snd].
    apply GP_bind; [apply GP_pat; auto; apply PA_clear_stack; eapply sp_bound; eauto|]. intros u s2 E2 H2.
    apply GP_bind.
    - unfold GP, modify. destruct H2 as (C & F & L). unfold G. simpl. repeat split; auto.
      + destruct (s_frames s2); simpl in *; tauto.
      + destruct (s_frames s2); simpl in *; lia.
    - intros u2 s3 _ H3. apply GP_bind; [apply GP_pat; auto; apply PA_get|]. intros s4 s5 _ H5. apply GP_pat; auto. apply PA_ret.
  Qed.

  Lemma GP_exec_op i s : safe_instr i -> G s -> GP (exec_op i) s.
  Proof.
    intros (Hc & Hn & Hb) H.
    destruct (in_dec N.eq_dec (i_code i) plain_codes) as [P|P]; [apply GP_pat; auto; apply PA_plain; auto|].
    unfold EngineModel.exec_op. cbv zeta.
    destruct (N.eqb_spec (i_code i) 0x04) as [E|N4].
    { rewrite E. cbv [N.eqb Pos.eqb]. apply GP_bind; [apply GP_pat; auto; apply PA_val_a|]. intros a s1 _ H1.
      apply GP_bind; [apply GP_jump; auto|]. intros u s2 _ H2. apply GP_pat; auto. apply PA_ret. }
    destruct (N.eqb_spec (i_code i) 0x05) as [E|N5].
    { rewrite E. cbv [N.eqb Pos.eqb]. apply GP_bind; [apply GP_pat; auto; apply PA_adr_b|]. intros b s1 _ H1.
      apply GP_bind; [apply GP_pat; auto; apply PA_read_fail|]. intros o s2 _ H2. destruct (is_true (o_val o)); [|apply GP_pat; auto; apply PA_ret].
      apply GP_bind; [apply GP_pat; auto; apply PA_val_a|]. intros a s3 _ H3.
      apply GP_bind; [apply GP_jump; auto|]. intros u s4 _ H4. apply GP_pat; auto. apply PA_ret. }
    destruct (N.eqb_spec (i_code i) 0x06) as [E|N6].
    { rewrite E. cbv [N.eqb Pos.eqb]. apply GP_bind; [apply GP_pat; auto; apply PA_adr_b|]. intros b s1 _ H1.
      apply GP_bind; [apply GP_pat; auto; apply PA_read_fail|]. intros o s2 _ H2. destruct (negb (is_true (o_val o))); [|apply GP_pat; auto; apply PA_ret].
      apply GP_bind; [apply GP_pat; auto; apply PA_val_a|]. intros a s3 _ H3.
      apply GP_bind; [apply GP_jump; auto|]. intros u s4 _ H4. apply GP_pat; auto. apply PA_ret. }
    destruct (N.eqb_spec (i_code i) 0x07) as [E|N7].
    { rewrite E. cbv [N.eqb Pos.eqb]. destruct (opflag i REF_B) eqn:Eb; [apply GP_pat; auto; apply PA_throw|].
      apply GP_bind; [apply GP_pat; auto; apply PA_val_a|]. intros a s1 _ H1.
      apply GP_bind; [apply GP_pat; auto; apply PA_val_b|]. intros b s2 E2 H2.
      assert (b = i_b i) as ->. { unfold val_b, deref_value in E2. rewrite Eb in E2. unfold ret in E2. congruence. }
      apply GP_bind; [apply GP_call; auto|]. intros u s4 _ H4. apply GP_pat; auto. apply PA_ret. }
    destruct (N.eqb_spec (i_code i) 0x08) as [E|N8].
    { rewrite E. cbv [N.eqb Pos.eqb]. apply GP_bind; [apply GP_do_ret; auto|]. intros e s1 _ H1. apply GP_pat; auto. apply PA_ret. }
    (** everything else is refused *)
    assert (X : forall c, In c (plain_codes ++ other_codes) -> (i_code i =? c) = false).
    { intros c Hin. apply N.eqb_neq. intros EE. rewrite <- EE in Hin. apply in_app_or in Hin. destruct Hin as [Hin|Hin]; contradiction. }
    assert (Y : (i_code i =? 4) = false /\ (i_code i =? 5) = false /\ (i_code i =? 6) = false /\ (i_code i =? 7) = false /\ (i_code i =? 8) = false).
    { repeat split; apply N.eqb_neq; auto. }
    destruct Y as (Y4 & Y5 & Y6 & Y7 & Y8).
    try rewrite Y4; try rewrite Y5; try rewrite Y6; try rewrite Y7; try rewrite Y8.
    repeat match goal with |- context [i_code i =? ?c] => rewrite (X c) by (simpl; tauto) end.
    exact Logic.I.
  Qed.
  Lemma GP_step s : G s -> GP step s.
  Proof.
    intros H. unfold EngineModel.step. apply GP_bind; [apply GP_pat; auto; apply PA_get_frame|]. intros f s1 _ H1.
    apply GP_bind; [apply GP_pat; auto; apply PA_get|]. intros s2 s3 E H3. injection E as <- <-.
    destruct (nth_error (s_code s1) (N.to_nat (fst f))) as [i|] eqn:Ei; [|exact Logic.I].
    apply GP_bind; [|intros u s4 _ H4; apply GP_pat; auto; apply PA_check_gas].
    unfold EngineModel.exec. apply GP_bind; [apply GP_pat; auto; apply PA_add_gas|]. intros u s4 _ H4.
    apply GP_bind.
    - apply GP_exec_op; auto. destruct H1 as (C & _). rewrite Forall_forall in C. apply C. eapply nth_error_In; eauto.
    - intros n s5 _ H5. destruct n; [apply GP_next; auto|apply GP_pat; auto; apply PA_ret].
  Qed.
  Lemma GP_run n : forall s, G s -> GP (run n) s.
  Proof.
    induction n as [|n IH]; intros s H; cbn [EngineModel.run];
      (apply GP_bind; [apply GP_pat; auto; apply PA_get|]; intros s2 s3 E H3; injection E as <- <-); destruct (s_frames s) as [|f fs] eqn:Ef.
    - apply GP_pat; auto. apply PA_ret.
    - exact Logic.I.
    - apply GP_pat; auto. apply PA_ret.
    - apply GP_bind; [apply GP_step; auto|]. intros u s2 _ H2. apply IH; auto.
  Qed.
  Lemma PA_stor_write a o : PA (stor_write a o). Proof. unfold stor_write. pa. Qed.
  Lemma PA_stor_write_entry a k o : PA (stor_write_entry a k o). Proof. unfold stor_write_entry. pa. Qed.
  Hint Resolve PA_stor_write PA_stor_write_entry : pa.
  Lemma PA_commit_mem l : PA (commit_mem l). Proof. induction l as [|(a, o) l IH]; cbn [commit_mem]; pa. Qed.
  Lemma PA_commit_ent l : PA (commit_ent l). Proof. induction l as [|((a, k), o) l IH]; cbn [commit_ent]; pa. Qed.
  Hint Resolve PA_commit_mem PA_commit_ent : pa.
  Lemma PA_commit : PA (commit bk).
  Proof. unfold commit. apply PA_bind; [apply PA_clear_stack; unfold MEM_STATIC, STACK_SIZE, SEG_SIZE; lia|]. pa. Qed.

  Lemma safe_execute fuel ip ic s s' : Forall safe_instr (s_code s) -> execute bk x remote_call read_contract fuel ip ic s <> Undefined s'.
  Proof.
    intros C E. assert (X : GP (execute bk x remote_call read_contract fuel ip ic) s).
    { unfold execute. apply GP_bind.
      - unfold GP, begin, bind, get. destruct (negb (s_init s)); [exact Logic.I|]. destruct (s_frames s); [|exact Logic.I].
        unfold modify. unfold G. simpl. repeat split; auto; try lia. unfold MAX_CALL_RECURSION. lia.
      - intros u s1 _ H1. apply GP_bind; [apply GP_run; auto|]. intros u2 s2 _ H2.
        apply GP_bind; [destruct ic; apply GP_pat; auto; [apply PA_ret|apply PA_commit]|]. intros u3 s3 _ H3. apply GP_pat; auto. apply PA_check_gas. }
    unfold GP in X. rewrite E in X. exact X.
  Qed.
End P.

(** C51, C55, the part that holds: the execution of a program that uses none of the instructions COPY, CLONE, GET, SET,
    PUSH_BACK, POP_BACK, CONCAT, RCALL and CREAD, and whose CALLs move the stack pointer by at most 2^20 each, has no
    undefined behaviour, in no state of memory and storage, up to and including the storing of its results.
    Missing: the instructions listed; COPY and POP_BACK do break the claim (C51_defined_behaviour_refuted). *)
Theorem C51_program_partial : forall bk x remote read_c fuel ip is_const s s',
  Forall safe_instr (s_code s) -> execute bk x remote read_c fuel ip is_const s <> Undefined s'.
Proof. intros. apply safe_execute. auto. Qed.
Print Assumptions C51_program_partial.

(** The same for single instructions in any program: all but those listed, and CALL and RET, are safe in every state. *)
Theorem C51_instruction_partial : forall bk x remote read_c i s s',
  i_code i < 256 -> ~ In (i_code i) (0x08 :: other_codes) -> exec bk x remote read_c i s <> Undefined s'.
Proof.
  intros bk x remote read_c i s s' Hc Hn E.
  assert (X : Pat (exec_op bk x remote read_c i) (set_gas (s_gas s + INSTR_COST) s) \/
              match exec_op bk x remote read_c i (set_gas (s_gas s + INSTR_COST) s) with Undefined _ => False | _ => True end).
  { right. set (s1 := set_gas _ s). destruct (in_dec N.eq_dec (i_code i) plain_codes) as [P|P].
    { pose proof (PA_plain bk x remote read_c i P s1) as H. unfold Pat in H. destruct (exec_op bk x remote read_c i s1); auto. }
    assert (J : forall A (m : M A) s, Pat m s -> match m s with Undefined _ => False | _ => True end).
    { intros A m s0 H. unfold Pat in H. destruct (m s0); auto. }
    assert (JB : forall A B (m : M A) (k : A -> M B) s, Pat m s -> (forall a s1, match k a s1 with Undefined _ => False | _ => True end) ->
       match bind m k s with Undefined _ => False | _ => True end).
    { intros A B m k s0 H K. unfold bind, Pat in *. destruct (m s0) as [a1 s1'|?|?|]; auto. apply K. }
    assert (JJ : forall a s, match (jump a ;;; ret false) s with Undefined _ => False | _ => True end).
    { intros a s0. unfold jump, bind, get, modify, throw, ret. destruct (s_frames s0) as [|(p, q) fs]; auto. }
    unfold exec_op. cbv zeta.
    destruct (N.eqb_spec (i_code i) 0x04) as [E4|N4]; [rewrite E4; cbv [N.eqb Pos.eqb]; apply JB; [apply PA_val_a|auto]|].
    destruct (N.eqb_spec (i_code i) 0x05) as [E5|N5].
    { rewrite E5. cbv [N.eqb Pos.eqb]. apply JB; [apply PA_adr_b|]. intros b s2. apply JB; [apply PA_read_fail|]. intros o s3.
      destruct (is_true (o_val o)); [apply JB; [apply PA_val_a|auto]|exact Logic.I]. }
    destruct (N.eqb_spec (i_code i) 0x06) as [E6|N6].
    { rewrite E6. cbv [N.eqb Pos.eqb]. apply JB; [apply PA_adr_b|]. intros b s2. apply JB; [apply PA_read_fail|]. intros o s3.
      destruct (negb (is_true (o_val o))); [apply JB; [apply PA_val_a|auto]|exact Logic.I]. }
    destruct (N.eqb_spec (i_code i) 0x07) as [E7|N7].
    { rewrite E7. cbv [N.eqb Pos.eqb]. destruct (opflag i REF_B); [exact Logic.I|]. apply JB; [apply PA_val_a|]. intros a s2. apply JB; [apply PA_val_b|].
      intros b s3. assert (HC : match call a b s3 with Undefined _ => False | _ => True end).
      { unfold call. destruct (STACK_SIZE <=? b); [exact Logic.I|]. apply JB; [apply PA_get|]. intros s4 s5.
        destruct (MAX_CALL_RECURSION <=? length (s_frames s4))%nat; [exact Logic.I|]. apply JB; [apply PA_add_gas|]. intros u s6.
        apply JB; [apply PA_get_frame|]. intros f s7. exact Logic.I. }
      unfold bind. destruct (call a b s3); auto. }
    assert (X : forall c, In c (plain_codes ++ 8 :: other_codes) -> (i_code i =? c) = false).
    { intros c Hin. apply N.eqb_neq. intros EE. rewrite <- EE in Hin. apply in_app_or in Hin. destruct Hin as [Hin|Hin]; contradiction. }
    assert (Y : (i_code i =? 4) = false /\ (i_code i =? 5) = false /\ (i_code i =? 6) = false /\ (i_code i =? 7) = false).
    { repeat split; apply N.eqb_neq; auto. }
    destruct Y as (Y4 & Y5 & Y6 & Y7). try rewrite Y4; try rewrite Y5; try rewrite Y6; try rewrite Y7.
    repeat match goal with |- context [i_code i =? ?c] => rewrite (X c) by (simpl; tauto) end.
    exact Logic.I. }
  assert (X2 : match exec_op bk x remote read_c i (set_gas (s_gas s + INSTR_COST) s) with Undefined _ => False | _ => True end).
  { destruct X as [X|X]; auto. unfold Pat in X. destruct (exec_op bk x remote read_c i _); auto. }
  unfold exec, bind, add_gas, modify in E. destruct (exec_op bk x remote read_c i (set_gas (s_gas s + INSTR_COST) s)) as [n s2|s2|s2|]; try discriminate; try contradiction.
  destruct n; [|discriminate]. unfold next, get_frame, jump, bind, get, modify, throw, ret in E. destruct (s_frames s2) as [|f fs] eqn:Ef; [discriminate|].
  rewrite Ef in E. destruct f. discriminate.
Qed.
Print Assumptions C51_instruction_partial.

(** C55, the part that holds: an operand in the stack area stands for an address in the stack area, whatever the frame is;
    and RET from a frame that starts within the stack stays within it.
    Missing: frames that start behind the end of the stack (C55_stack_bounds_refuted). *)
Theorem C55_stack_partial : forall bk s,
  (forall a b s', MEM_STACK <= a < MEM_STATIC -> deref_addr bk a false s = Ok b s' -> MEM_STACK <= b < MEM_STATIC) /\
  (forall ip sp fs s', s_frames s = (ip, sp) :: fs -> sp < STACK_SIZE -> do_ret bk s <> Undefined s').
Proof.
  intros bk s. split.
  - intros a b s' (H1 & H2) E. unfold deref_addr in E. apply N.leb_le in H1 as H1b. apply N.ltb_lt in H2 as H2b. rewrite H1b, H2b in E.
    cbn [andb] in E. apply bind_ok in E as (a' & s1 & E1 & E2). unfold ret in E2. injection E2 as <- <-.
    apply bind_ok in E1 as (f & s2 & E1 & E2). destruct (N.leb_spec MEM_STATIC (a + snd f)); [discriminate|].
    unfold ret in E2. injection E2 as <- <-. lia.
  - intros ip sp fs s' Ef Hs E.
    assert (P : Pat (clear_stack bk (sp + 1)) s) by (apply PA_clear_stack; unfold MEM_STATIC; lia).
    assert (F : get_frame s = Ok (ip, sp) s) by (unfold get_frame, bind, get; rewrite Ef; reflexivity).
    unfold do_ret in E. unfold bind at 1 in E. rewrite F in E. cbn [snd] in E. unfold bind at 1 in E.
    unfold Pat in P. destruct (clear_stack bk (sp + 1) s); try discriminate; contradiction.
Qed.
Print Assumptions C55_stack_partial.

(** A program with a subroutine: adds, compares, jumps, calls, stores *)
Definition code_safe := [mk_instr 0x20 32 (MEM_STATIC + 2) 2 2 0; mk_instr 0x07 0 4 16 0 0; mk_instr 0x60 0 (MEM_STACK + 1) (MEM_STATIC + 2) 2 0;
                         RET; mk_instr 0x22 0 (MEM_STACK + 1) (MEM_STATIC + 2) 2 0; RET].
Example C51_case : Forall safe_instr code_safe /\ exists s, call0 (env0 code_safe const_erase [] [] true) None = Ok tt s.
Proof.
  split.
  - repeat (constructor; [split; [reflexivity|split; [vm_compute; intuition discriminate|vm_compute; intuition discriminate]]|]). constructor.
  - eexists. vm_compute. reflexivity.
Qed.
Example C55_case : exists s ip sp fs, s_frames s = (ip, sp) :: fs /\ sp < STACK_SIZE /\ s_code s = code_safe /\
  exists b s', deref_addr bk0 (MEM_STACK + 5) false s = Ok b s' /\ b = MEM_STACK + 21.
Proof.
  exists (set_frames [(0, 16)] (set_code code_safe (engine_new aA 1 1000 false w0))), 0, 16, [].
  repeat split. do 2 eexists. split; vm_compute; reflexivity.
Qed.
