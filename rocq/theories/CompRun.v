(** Running the machine: jumps, calls and returns, and how runs are put together. *)
Require Import List Arith NArith ZArith Bool String Lia.
From Verif Require Import BytesLib OrdLib VarModel InstrModel EngineModel EngineProofs EngineUpper CompModel CompSpec CompGen CompLink CompVm.
Import List ListNotations.
Open Scope N_scope.

Lemma aget_remove {V} (a b : N) (m : list (N * V)) :
  aget N.compare b (filter (fun e => negb (fst e =? a)) m) = if b =? a then None else aget N.compare b m.
Proof.
  induction m as [|(k, v) m IH]; cbn [filter aget fst]; [now destruct (b =? a)|].
  destruct (N.eqb_spec k a) as [->|Ne]; cbn [negb].
  - rewrite IH. destruct (N.eqb_spec b a) as [->|Ne]; auto. destruct (b ?= a) eqn:E; auto. apply N.compare_eq in E. congruence.
  - cbn [aget]. destruct (b ?= k) eqn:E.
    + apply N.compare_eq in E. subst k. destruct (N.eqb_spec b a); congruence.
    + exact IH.
    + exact IH.
Qed.
Lemma aget_in {V} (b : N) (m : list (N * V)) v : aget N.compare b m = Some v -> In b (map fst m).
Proof.
  induction m as [|(k, u) m IH]; cbn [aget map fst]; [discriminate|].
  destruct (b ?= k) eqn:E; intros H; [apply N.compare_eq in E; now left|right; auto|right; auto].
Qed.

Section RUN.
  Variable bk : backend.
  Variable x : ext.
  Variable rc : bytes -> bytes -> N -> M unit.
  Variable rd : addr -> bytes -> N -> M unit.
  Notation set_frames := EngineModel.set_frames.
  Notation exec := (EngineModel.exec bk x rc rd).
  Notation exec_op := (EngineModel.exec_op bk x rc rd).
  Notation step := (EngineModel.step bk x rc rd).
  Notation run := (EngineModel.run bk x rc rd).
  Notation acts := (CompVm.acts bk x rc rd).

  (** *** Runs *)
  Definition steps (k : nat) (s s' : st) : Prop := forall n, run (k + n) s = run n s'.
  Definition dies (k : nat) (s s' : st) : Prop := forall n, run (k + n) s = Throw s'.
  Definition overrun (s : st) : Prop := s_limit s < s_gas s.
  (** the machine comes to a state [Q], or runs out of gas *)
  Definition goes (s : st) (Q : st -> Prop) : Prop :=
    (exists k s', steps k s s' /\ Q s') \/ (exists k s', dies k s s' /\ overrun s').
  Definition fails (s : st) : Prop := exists k s', dies k s s'.
  Lemma goes_now (Q : st -> Prop) s : Q s -> goes s Q.
  Proof. intros H. left. exists 0%nat, s. split; [intros n; reflexivity|exact H]. Qed.
  Lemma goes_then (Q R : st -> Prop) s : goes s Q -> (forall s', Q s' -> goes s' R) -> goes s R.
  Proof.
    intros [(k & s1 & St & HQ)|(k & s1 & D & O)] H; [|right; eauto].
    destruct (H _ HQ) as [(k2 & s2 & St2 & HR)|(k2 & s2 & D2 & O2)].
    - left. exists (k + k2)%nat, s2. split; auto. intros n. rewrite <- Nat.add_assoc, St. apply St2.
    - right. exists (k + k2)%nat, s2. split; auto. intros n. rewrite <- Nat.add_assoc, St. apply D2.
  Qed.
  Lemma goes_fails (Q : st -> Prop) s : goes s Q -> (forall s', Q s' -> fails s') -> fails s.
  Proof.
    intros [(k & s1 & St & HQ)|(k & s1 & D & O)] H; [|exists k; eauto].
    destruct (H _ HQ) as (k2 & s2 & D2). exists (k + k2)%nat, s2. intros n. rewrite <- Nat.add_assoc, St. apply D2.
  Qed.
  Lemma goes_weaken (Q R : st -> Prop) s : goes s Q -> (forall s', Q s' -> R s') -> goes s R.
  Proof. intros H I. eapply goes_then; eauto. intros s' HQ. apply goes_now. auto. Qed.

  Lemma run_step s f fs i n : s_frames s = f :: fs -> nth_error (s_code s) (N.to_nat (fst f)) = Some i ->
    run (1 + n) s = bind (bind (exec i) (fun _ => check_gas)) (fun _ => run n) s.
  Proof.
    intros F Ni. cbn [Nat.add EngineModel.run]. erewrite bind_eq by reflexivity. rewrite F.
    unfold bind at 1. unfold EngineModel.step at 1. erewrite bind_eq by (eapply frame_ok; eauto). erewrite bind_eq by reflexivity.
    rewrite Ni. reflexivity.
  Qed.
  Lemma step_goes s f fs i s1 (Q : st -> Prop) : s_frames s = f :: fs -> nth_error (s_code s) (N.to_nat (fst f)) = Some i ->
    exec i s = Ok tt s1 -> Q s1 -> goes s Q.
  Proof.
    intros F Ni E HQ. destruct (s_limit s1 <? s_gas s1) eqn:G.
    - right. exists 1%nat, (set_error TXFEE_OVERRUN s1). split; [|apply N.ltb_lt in G; exact G].
      intros n. rewrite (run_step _ _ _ _ _ F Ni). apply bind_throw. erewrite bind_eq by exact E. unfold check_gas. now rewrite G.
    - left. exists 1%nat, s1. split; auto. intros n. rewrite (run_step _ _ _ _ _ F Ni).
      erewrite bind_eq with (s' := s1); [reflexivity|]. erewrite bind_eq by exact E. unfold check_gas. now rewrite G.
  Qed.
  Lemma step_fails s f fs i s1 : s_frames s = f :: fs -> nth_error (s_code s) (N.to_nat (fst f)) = Some i ->
    exec i s = Throw s1 -> fails s.
  Proof.
    intros F Ni E. exists 1%nat, s1. intros n. rewrite (run_step _ _ _ _ _ F Ni). apply bind_throw, bind_throw, E.
  Qed.
  Lemma step_over s f fs i s1 Q : s_frames s = f :: fs -> nth_error (s_code s) (N.to_nat (fst f)) = Some i ->
    exec i s = Throw s1 -> overrun s1 -> goes s Q.
  Proof.
    intros F Ni E O. right. exists 1%nat, s1. split; auto. intros n. rewrite (run_step _ _ _ _ _ F Ni). apply bind_throw, bind_throw, E.
  Qed.
  Lemma acts_goes i s p v ip sp fs (Q : st -> Prop) : s_frames s = (ip, sp) :: fs -> nth_error (s_code s) (N.to_nat ip) = Some i ->
    acts i s (Some (p, v)) -> (forall s', wrote s p v s' -> s_frames s' = (ip + 1, sp) :: fs -> Q s') -> goes s Q.
  Proof.
    intros F Ni (s' & ip' & sp' & fs' & E & W & F1 & F2) H. rewrite F in F1. injection F1 as <- <- <-.
    eapply step_goes; eauto.
  Qed.
  Lemma acts_fails i s ip sp fs : s_frames s = (ip, sp) :: fs -> nth_error (s_code s) (N.to_nat ip) = Some i ->
    acts i s None -> fails s.
  Proof. intros F Ni (s' & E). eapply step_fails; eauto. Qed.

  (** *** Instructions *)
  Section INSTR.
    Variables (s : st) (ip sp : N) (fs : list (N * N)).
    Hypothesis F : s_frames s = (ip, sp) :: fs.
    Hypothesis B : ip + 1 < 2 ^ 64.
    Lemma frames_gassed : s_frames (gassed s) = (ip, sp) :: fs. Proof. exact F. Qed.
    Lemma copy_acts d a v : addr_ok sp d -> addr_ok sp a -> phys sp d <> phys sp a -> MEM_STACK <= phys sp d < MEM_STATIC -> tidy s ->
      holds s (phys sp a) v -> vals_of v = true -> acts (mk_instr OP_COPY 0 d a 0 0) s (Some (phys sp d, v)).
    Proof.
      intros Ad Aa Ne Hd T (o & C & D & V) Hv. destruct (write_ok bk (phys sp d) (mem_ref (phys sp a) o) o (gassed s)) as (s' & W & Wr & Fr); auto.
      - apply load_mem. exact C.
      - now rewrite V.
      - cbn. congruence.
      - rewrite V in Wr. eapply acts_ok with (s1 := s'); [reflexivity|exact F|exact B| |exact Wr|exact Fr].
        unfold adr_a, adr_b, opflag. cbn [i_flags i_a i_b]. change (N.testbit 0 REF_A) with false. change (N.testbit 0 REF_B) with false.
        pose proof frames_gassed as F'.
        erewrite bind_eq by (eapply deref_ok; eauto). erewrite bind_eq by (eapply deref_ok; eauto).
        unfold EngineModel.copy. apply N.eqb_neq in Ne. rewrite Ne. erewrite bind_eq by (apply read_ok; eauto). exact W.
    Qed.
    Lemma exec_eq i : exec i s = bind (exec_op i) (fun n => if n : bool then next else ret tt) (gassed s).
    Proof. reflexivity. Qed.
    Lemma next_ok s1 : s_frames s1 = (ip, sp) :: fs -> next s1 = Ok tt (set_frames ((ip + 1, sp) :: fs) s1).
    Proof.
      intros F1. unfold next. erewrite bind_eq by (eapply frame_ok; eauto). cbn [fst]. rewrite N.mod_small by auto.
      eapply jump_ok; eauto.
    Qed.
    Lemma exec_jump a : exec (mk_instr OP_JUMP 0 a 0 0 0) s = Ok tt (set_frames ((a, sp) :: fs) (gassed s)).
    Proof.
      rewrite exec_eq. erewrite bind_eq with (a := false); [reflexivity|].
      change (exec_op (mk_instr OP_JUMP 0 a 0 0 0)) with (bind (ret a) (fun a => bind (jump a) (fun _ => ret false))).
      erewrite bind_eq by reflexivity. erewrite bind_eq by (eapply jump_ok, frames_gassed). reflexivity.
    Qed.
    Lemma exec_jumpif (on : bool) a b v : addr_ok sp b -> holds s (phys sp b) (val_of v) ->
      exec (mk_instr (if on then OP_JUMPI else OP_JUMPN) 0 a b 0 0) s =
      Ok tt (set_frames ((if Bool.eqb (truth v) on then a else ip + 1, sp) :: fs) (gassed s)).
    Proof.
      intros Ab (o & C & D & V). rewrite exec_eq.
      assert (E : exec_op (mk_instr (if on then OP_JUMPI else OP_JUMPN) 0 a b 0 0) (gassed s) =
        if Bool.eqb (truth v) on then Ok false (set_frames ((a, sp) :: fs) (gassed s)) else Ok true (gassed s)).
      { transitivity (bind (deref_addr bk b false) (fun b => bind (EngineModel.read_fail bk b)
          (fun o => if Bool.eqb (is_true (o_val o)) on then bind (ret a) (fun a => bind (jump a) (fun _ => ret false)) else ret true)) (gassed s)).
        - destruct on; [change (if true then OP_JUMPI else OP_JUMPN) with OP_JUMPI|change (if false then OP_JUMPI else OP_JUMPN) with OP_JUMPN].
          + change (exec_op (mk_instr OP_JUMPI 0 a b 0 0)) with (bind (deref_addr bk b false) (fun b => bind (EngineModel.read_fail bk b)
              (fun o => if is_true (o_val o) then bind (ret a) (fun a => bind (jump a) (fun _ => ret false)) else ret true))).
            unfold bind. destruct (deref_addr bk b false (gassed s)); auto. match goal with |- context [EngineModel.read_fail bk ?p ?q] => destruct (EngineModel.read_fail bk p q) end; auto.
            match goal with |- context [is_true ?u] => destruct (is_true u) end; reflexivity.
          + change (exec_op (mk_instr OP_JUMPN 0 a b 0 0)) with (bind (deref_addr bk b false) (fun b => bind (EngineModel.read_fail bk b)
              (fun o => if negb (is_true (o_val o)) then bind (ret a) (fun a => bind (jump a) (fun _ => ret false)) else ret true))).
            reflexivity.
        - erewrite bind_eq by (eapply deref_ok; [exact frames_gassed|exact Ab]). erewrite bind_eq by (eapply read_ok; [exact C|exact D]).
          rewrite V, is_true_of. destruct (Bool.eqb (truth v) on); [|reflexivity].
          erewrite bind_eq by reflexivity. erewrite bind_eq by (eapply jump_ok, frames_gassed). reflexivity. }
      destruct (Bool.eqb (truth v) on); erewrite bind_eq by exact E; [reflexivity|]. apply next_ok, frames_gassed.
    Qed.
    Lemma exec_call a off : off < STACK_SIZE -> sp + off < 2 ^ 64 ->
      exec (mk_instr OP_CALL 0 a off 0 0) s =
      (if (MAX_CALL_RECURSION <=? List.length (s_frames s))%nat then Throw (gassed s)
       else Ok tt (set_frames ((a, sp + off) :: (ip, sp) :: fs) (set_gas (s_gas s + INSTR_COST + INSTR_CALL_COST) s))).
    Proof.
      intros Lo Ls. rewrite exec_eq.
      change (exec_op (mk_instr OP_CALL 0 a off 0 0)) with
        (bind (ret a) (fun a => bind (ret off) (fun b => bind (EngineModel.call a b) (fun _ => ret false)))).
      assert (Cl : EngineModel.call a off (gassed s) = if (MAX_CALL_RECURSION <=? List.length (s_frames s))%nat then Throw (gassed s)
        else Ok tt (set_frames ((a, sp + off) :: (ip, sp) :: fs) (set_gas (s_gas s + INSTR_COST + INSTR_CALL_COST) s))).
      { unfold EngineModel.call. apply N.leb_gt in Lo. rewrite Lo. erewrite bind_eq by reflexivity.
        change (s_frames (gassed s)) with (s_frames s). destruct (_ <=? _)%nat; [reflexivity|].
        unfold add_gas. erewrite bind_eq by reflexivity. erewrite bind_eq by (eapply frame_ok; exact F). cbn [snd].
        rewrite N.mod_small by auto. unfold modify.
        change (Ok tt (set_frames ((a, sp + off) :: s_frames s) (set_gas (s_gas s + INSTR_COST + INSTR_CALL_COST) s)) =
                Ok tt (set_frames ((a, sp + off) :: (ip, sp) :: fs) (set_gas (s_gas s + INSTR_COST + INSTR_CALL_COST) s))).
        now rewrite F. }
      destruct (_ <=? _)%nat.
      - apply bind_throw. erewrite bind_eq by reflexivity. erewrite bind_eq by reflexivity. apply bind_throw, Cl.
      - erewrite bind_eq with (a := false); [reflexivity|]. erewrite bind_eq by reflexivity. erewrite bind_eq by reflexivity.
        erewrite bind_eq by exact Cl. reflexivity.
    Qed.
    Lemma exec_fail a : addr_ok sp a -> a < MEM_STACK -> exists s', exec (mk_instr OP_FAIL 0 a 0 0 0) s = Throw s'.
    Proof.
      intros Aa La. rewrite exec_eq.
      change (exec_op (mk_instr OP_FAIL 0 a 0 0 0)) with
        (bind (ret 0) (fun b => bind (modify (set_error (b mod 2 ^ 32))) (fun _ => bind (deref_addr bk a false) (fun a => bind (EngineModel.read bk a false) (fun _ => @throw bool))))).
      set (s1 := set_error (0 mod 2 ^ 32) (gassed s)).
      assert (F1 : s_frames s1 = (ip, sp) :: fs) by exact F.
      exists s1. apply bind_throw.
      erewrite bind_eq by reflexivity. erewrite bind_eq with (s' := s1) by reflexivity. erewrite bind_eq by (eapply deref_ok; eauto).
      unfold phys. apply N.ltb_lt in La. rewrite La. apply N.ltb_lt in La.
      assert (R : exists o, EngineModel.read bk a false s1 = Ok o s1).
      { unfold EngineModel.read. erewrite bind_eq by reflexivity. destruct (cell s1 (LMem a)) as [o|]; [eexists; reflexivity|].
        replace (MEM_STATIC <=? a) with false; [eexists; reflexivity|]. symmetry. apply N.leb_gt. unfold MEM_STATIC. lia. }
      destruct R as (o & R). erewrite bind_eq by exact R. reflexivity.
    Qed.
  End INSTR.

  (** *** Clearing the stack *)
  Definition cleared (l : list N) (s s' : st) : Prop :=
    aside s' = aside s /\ s_frames s' = s_frames s /\
    forall b, cell s' (LMem b) = if existsb (N.eqb b) l then None else cell s (LMem b).
  Lemma clear_addrs_ok l : forall s, tidy s -> (forall a, In a l -> MEM_STACK <= a < MEM_STATIC) ->
    (exists s', clear_addrs bk l s = Ok tt s' /\ cleared l s s') \/ (exists s', clear_addrs bk l s = Throw s' /\ overrun s').
  Proof.
    induction l as [|a l IH]; intros s T Hl; cbn [clear_addrs].
    - left. exists s. split; [reflexivity|]. split; [auto|]. split; auto.
    - erewrite !bind_eq by reflexivity. destruct (cell s (LMem a)) as [o|] eqn:C.
      + set (s1 := set_mem (filter (fun e => negb (fst e =? a)) (s_mem s)) s).
        assert (C1 : forall b, cell s1 (LMem b) = if b =? a then None else cell s (LMem b)) by (intros b; apply aget_remove).
        assert (T1 : tidy s1).
        { intros b o' Hb H. rewrite C1 in H. destruct (b =? a); [discriminate|]. eapply T; eauto. }
        assert (P : plain_obj o) by (apply (T a); auto; apply Hl; now left).
        assert (E : (bind (clear bk o) (fun _ => bind (modify (fun s => set_mem (filter (fun e => negb (fst e =? a)) (s_mem s)) s)) (fun _ => check_gas))) s
                    = check_gas s1).
        { erewrite bind_eq by (apply clear_plain, P). erewrite bind_eq by reflexivity. reflexivity. }
        unfold check_gas in E. destruct (s_limit s1 <? s_gas s1) eqn:G.
        * right. eexists. split; [apply bind_throw, E|]. apply N.ltb_lt in G. exact G.
        * destruct (IH s1 T1) as [(s' & R & (A1 & A2 & A3))|(s' & R & O)]; [intros; apply Hl; now right| |].
          -- left. exists s'. split; [erewrite bind_eq by exact E; exact R|]. split; [exact A1|]. split; [exact A2|].
             intros b. rewrite A3. cbn [existsb]. destruct (existsb (N.eqb b) l); [now rewrite orb_true_r|]. rewrite C1, orb_false_r. reflexivity.
          -- right. exists s'. split; auto. erewrite bind_eq by exact E. exact R.
      + destruct (IH s T) as [(s' & R & (A1 & A2 & A3))|(s' & R & O)]; [intros; apply Hl; now right| |].
        * left. exists s'. split; [erewrite bind_eq by reflexivity; exact R|]. split; [exact A1|]. split; [exact A2|].
          intros b. rewrite A3. cbn [existsb]. destruct (existsb (N.eqb b) l); [now rewrite orb_true_r|].
          destruct (N.eqb_spec b a) as [->|]; auto.
        * right. exists s'. split; auto.
  Qed.
  Definition bump (fs : list (N * N)) : list (N * N) := match fs with [] => [] | (ip, sp) :: fs => (ip + 1, sp) :: fs end.
  Lemma exec_ret s ip sp fs : s_frames s = (ip, sp) :: fs -> tidy s -> MEM_STACK + sp + 1 <= MEM_STATIC ->
    match fs with [] => True | (ip', _) :: _ => ip' + 1 < 2 ^ 64 end ->
    (exists s', exec (mk_instr OP_RET 0 0 0 0 0) s = Ok tt s' /\ aside s' = aside s /\ s_frames s' = bump fs /\ tidy s' /\
                forall b, cell s' (LMem b) = if (MEM_STACK + sp + 1 <=? b) && (b <? MEM_STATIC) then None else cell s (LMem b)) \/
    (exists s', exec (mk_instr OP_RET 0 0 0 0 0) s = Throw s' /\ overrun s').
  Proof.
    intros F T L Hf. set (l := in_range (MEM_STACK + (sp + 1)) MEM_STATIC (gassed s)).
    assert (Il : forall b, existsb (N.eqb b) l = true -> MEM_STACK + sp + 1 <= b < MEM_STATIC).
    { intros b H. apply existsb_exists in H. destruct H as (b' & H & E). apply N.eqb_eq in E. subst b'. unfold l, in_range in H. apply in_map_iff in H.
      destruct H as (e & <- & H). apply filter_In in H. destruct H as [_ H]. apply andb_true_iff in H. destruct H as [H1 H2].
      apply N.leb_le in H1. apply N.ltb_lt in H2. lia. }
    assert (Cl : forall b o, cell s (LMem b) = Some o -> MEM_STACK + sp + 1 <= b < MEM_STATIC -> existsb (N.eqb b) l = true).
    { intros b o C Hb. apply existsb_exists. exists b. split; [|apply N.eqb_refl]. unfold l, in_range. cbn [cell] in C.
      apply aget_in in C. apply in_map_iff in C. destruct C as (e & Ee & C). apply in_map_iff. exists e. split; auto.
      apply filter_In. split; [exact C|]. apply andb_true_iff. split; [apply N.leb_le; lia|apply N.ltb_lt; lia]. }
    assert (Dr : do_ret bk (gassed s) = bind (clear_addrs bk l) (fun _ => bind (modify (fun s => set_frames (tl (s_frames s)) s))
                   (fun _ => bind EngineModel.get (fun s => ret (match s_frames s with [] => true | _ => false end)))) (gassed s)).
    { unfold do_ret. erewrite bind_eq by (eapply frame_ok; exact F). cbn [snd]. unfold clear_stack.
      unfold bind at 1 2. unfold EngineModel.get at 1. replace (MEM_STACK + (sp + 1) <=? MEM_STATIC) with true by (symmetry; apply N.leb_le; lia).
      reflexivity. }
    assert (Ex : exec (mk_instr OP_RET 0 0 0 0 0) s = bind (bind (do_ret bk) (fun e => ret (negb e))) (fun n => if n : bool then next else ret tt) (gassed s))
      by reflexivity.
    destruct (clear_addrs_ok l (gassed s)) as [(s1 & R & (A1 & A2 & A3))|(s1 & R & O)].
    - exact T.
    - intros a Ha. assert (existsb (N.eqb a) l = true) by (apply existsb_exists; exists a; split; auto; apply N.eqb_refl). specialize (Il a H).
      lia.
    - left. change (s_frames (gassed s)) with (s_frames s) in A2. rewrite F in A2.
      assert (T1 : forall f, tidy (set_frames f s1)).
      { intros f b o Hb H. change (cell (set_frames f s1) (LMem b)) with (cell s1 (LMem b)) in H. rewrite A3 in H.
        destruct (existsb _ l); [discriminate|]. eapply T; eauto. }
      assert (C1 : forall f b, cell (set_frames f s1) (LMem b) = if (MEM_STACK + sp + 1 <=? b) && (b <? MEM_STATIC) then None else cell s (LMem b)).
      { intros f b. change (cell (set_frames f s1) (LMem b)) with (cell s1 (LMem b)). rewrite A3. change (cell (gassed s) (LMem b)) with (cell s (LMem b)).
        destruct (existsb (N.eqb b) l) eqn:Eb.
        - apply Il in Eb. replace (MEM_STACK + sp + 1 <=? b) with true by (symmetry; apply N.leb_le; lia).
          replace (b <? MEM_STATIC) with true by (symmetry; apply N.ltb_lt; lia). reflexivity.
        - destruct ((MEM_STACK + sp + 1 <=? b) && (b <? MEM_STATIC)) eqn:Rg; auto. apply andb_true_iff in Rg. destruct Rg as [R1 R2].
          apply N.leb_le in R1. apply N.ltb_lt in R2. destruct (cell s (LMem b)) as [o|] eqn:Co; auto. rewrite (Cl b o Co) in Eb; [discriminate|lia]. }
      assert (Dr2 : do_ret bk (gassed s) = Ok (match fs with [] => true | _ => false end) (set_frames fs s1)).
      { rewrite Dr. erewrite bind_eq by exact R. unfold modify. erewrite bind_eq by reflexivity. erewrite bind_eq by reflexivity.
        rewrite A2. reflexivity. }
      destruct fs as [|(ip', sp') fs'].
      + exists (set_frames [] s1). split; [rewrite Ex; erewrite bind_eq; [|erewrite bind_eq by exact Dr2; reflexivity]; reflexivity|].
        split; [exact A1|]. split; [reflexivity|]. split; [apply T1|]. intros b. apply C1.
      + exists (set_frames ((ip' + 1, sp') :: fs') (set_frames ((ip', sp') :: fs') s1)). split.
        * rewrite Ex. erewrite bind_eq; [|erewrite bind_eq by exact Dr2; reflexivity]. cbn [negb]. apply next_ok; auto.
        * split; [exact A1|]. split; [reflexivity|]. split; [apply T1|]. intros b. apply C1.
    - right. exists s1. split; auto. rewrite Ex. apply bind_throw, bind_throw. rewrite Dr. apply bind_throw, R.
  Qed.
End RUN.
