(** C20 (behaviour of packed code), C21-C24, C51-C57: execution of contracts *)
Require Import List Arith NArith ZArith Bool Lia.
From Verif Require Import BytesLib OrdLib VarModel InstrModel InstrSpec EngineModel EngineSpec ExecModel ExecSpec EngineProofs EngineUpper ExecProofs ExecFacts.
Import ListNotations.
Open Scope N_scope.

(** C20: what packing may change of an instruction (C20_used_operands) does not change what it does. *)
Theorem C20_packed_code_behaves_the_same : forall bk x remote read_c i s,
  exec bk x remote read_c (canon i) s = exec bk x remote read_c i s.
Proof. exact exec_canon. Qed.
Print Assumptions C20_packed_code_behaves_the_same.

(** C21: a call, with all the calls it makes to other contracts, ends; when it succeeds the gas is within the limit.
    [Fuel] is the outcome of a run that did not end within the instructions (and call depth) it was given. *)
Theorem C21_call_ends_within_gas : forall E depth ex address user deposit name args is_init limit w,
  backend_ok (e_backend E) -> 0 < e_fee_exec E -> ram_ok (w_ram w) -> limit < e_fee_exec E * N.of_nat depth ->
  match exec_call E depth ex address user deposit name args is_init (engine_new address (e_version E) limit false w) with
  | Fuel => False
  | Ok _ s => s_gas s <= limit
  | Throw _ | Undefined _ => True
  end.
Proof.
  intros E depth ex a u d name args ii limit w B F R L.
  pose proof (call_ok E B depth ex a u d name args ii limit w F R L) as H.
  destruct (exec_call _ _ _ _ _ _ _ _ _ _); auto. apply H.
Qed.
Print Assumptions C21_call_ends_within_gas.
(** Every engine executes at most gas_limit / 20 + 1 instructions: more do not change the outcome. *)
Theorem C21_instruction_bound : forall E depth depends s more,
  backend_ok (e_backend E) -> 0 < e_fee_exec E -> mints_ok s -> st_ok s -> s_limit s < e_fee_exec E * N.of_nat depth ->
  let n := S (N.to_nat (s_limit s / 20)) in
  let go := run (e_backend E) (e_ext E) (remote_call E depth depends) (read_contract E) in
  go n s <> Fuel /\ go (n + more)%nat s = go n s.
Proof.
  intros E depth depends s more B F M O L n go. pose proof (run_ends E B F depth depends s M O L) as H. split; auto. apply run_more. auto.
Qed.
Print Assumptions C21_instruction_bound.

(** C22: when an arithmetic instruction with overflow checking succeeds, the destination shows the exact result. *)
Theorem C22_arithmetic_exact : forall E depth depends i s s',
  exec (e_backend E) (e_ext E) (remote_call E depth depends) (read_contract E) i s = Ok tt s' ->
  opflag i CATCH_OVERFLOW = true -> 1 <= s_version s -> In (i_code i) [0x20; 0x21; 0x22; 0x23; 0x24] ->
  exists dst lhs rhs L R D,
    operand (e_backend E) s (i_a i) (opflag i REF_A) = Some dst /\ operand (e_backend E) s (i_b i) (opflag i REF_B) = Some lhs /\
    operand (e_backend E) s (i_c i) (opflag i REF_C) = Some rhs /\
    visible (e_backend E) s lhs = Some (VUint L) /\ visible (e_backend E) s rhs = Some (VUint R) /\
    visible (e_backend E) s' dst = Some (VUint D) /\
    (L < 2 ^ 256 -> R < 2 ^ 256 -> exact_result (i_code i) L R D).
Proof. exact exec_arith. Qed.
Print Assumptions C22_arithmetic_exact.
(** In transactions of version 0 a multiplication can wrap although overflow checking is on. *)
Theorem C22_version_0_multiplication_refuted : exists i L R g D,
  L < 2 ^ 256 /\ R < 2 ^ 256 /\ opflag i CATCH_OVERFLOW = true /\ op_mul 0 i L R = Some (g, D) /\ D <> L * R.
Proof. exists (mk_instr 0x22 32 0 0 0 0), 3, (2 ^ 255), 200, (2 ^ 255). repeat split; try (vm_compute; reflexivity). vm_compute. discriminate. Qed.
Print Assumptions C22_version_0_multiplication_refuted.

(** C23: after any number of instructions, everything below the stack (constants, user, address, deposit, height,
    transaction id) still reads as when the call began; the deposit is an array: it can only lose elements at its end. *)
Theorem C23_context_unchanged_partial : forall E depth depends ip n s0 s s' a v,
  backend_ok (e_backend E) -> 0 < e_fee_exec E -> begin ip s0 = Ok tt s ->
  steps (step (e_backend E) (e_ext E) (remote_call E depth depends) (read_contract E)) n s s' ->
  mints_ok s0 -> st_ok s0 -> s_limit s0 < e_fee_exec E * N.of_nat depth ->
  a < MEM_STACK -> visible (e_backend E) s a = Some v ->
  (match v with VArray _ _ => False | _ => True end -> visible (e_backend E) s' a = Some v) /\
  (forall b k, v = VArray b k -> exists k', visible (e_backend E) s' a = Some (VArray b k') /\ k' <= k /\
     forall i u, i < k' -> visible_at s a i = Some u -> visible_at s' a i = Some u).
Proof. intros E depth depends ip n s0 s s' a v B F. exact (context_kept E B F depth depends ip n s0 s s' a v). Qed.
Print Assumptions C23_context_unchanged_partial.

(** C24: what is sent by a contract in a call, and what it has left, is what it had with the deposit. *)
Theorem C24_sent_and_left : forall E depth ex address user deposit name args is_init limit w s,
  backend_ok (e_backend E) -> 0 < e_fee_exec E -> ram_ok (w_ram w) -> limit < e_fee_exec E * N.of_nat depth ->
  exec_call E depth ex address user deposit name args is_init (engine_new address (e_version E) limit false w) = Ok tt s ->
  forall c cur,
    spent w c cur <= spent (s_world s) c cur /\
    balance_of (e_backend E) (s_world s) c cur + sent w (s_world s) c cur
      = balance_of (e_backend E) w c cur + deposited deposit address c cur.
Proof.
  intros E depth ex a u d name args ii limit w s B F R L H c cur.
  pose proof (call_ok E B depth ex a u d name args ii limit w F R L) as K. rewrite H in K. destruct K as (_ & K).
  pose proof (rw_bal _ _ _ _ K c cur) as K1. pose proof (rw_spent _ _ _ _ K c cur) as K2.
  change (spent (dep_world E d w a) c cur) with (spent w c cur) in *. rewrite dep_world_balance in K1. unfold sent. split; lia.
Qed.
Print Assumptions C24_sent_and_left.
(** The outputs of the call are what was sent; only the currency of a contract that takes part may come to more: minted. *)
Theorem C24_outputs_are_sent : forall E depth ex address user deposit name args is_init limit w s,
  backend_ok (e_backend E) -> 0 < e_fee_exec E -> ram_ok (w_ram w) -> limit < e_fee_exec E * N.of_nat depth ->
  exec_call E depth ex address user deposit name args is_init (engine_new address (e_version E) limit false w) = Ok tt s ->
  exists outs, w_outs (s_world s) = w_outs w ++ outs /\
    forall cur,
      total_spent (s_world s) cur <= total_spent w cur + out_sum cur outs /\
      (e_locked E cur = false -> total_spent (s_world s) cur = total_spent w cur + out_sum cur outs).
Proof.
  intros E depth ex a u d name args ii limit w s B F R L H.
  pose proof (call_ok E B depth ex a u d name args ii limit w F R L) as K. rewrite H in K. destruct K as (_ & K).
  destruct (rw_outs _ _ _ _ K) as (o & O). exists o. change (w_outs (dep_world E d w a)) with (w_outs w) in O. split; auto. intros cur.
  pose proof (rw_cons _ _ _ _ K cur) as K1. pose proof (rw_cons_ge _ _ _ _ K cur) as K2.
  change (total_spent (dep_world E d w a) cur) with (total_spent w cur) in *. change (w_outs (dep_world E d w a)) with (w_outs w) in *.
  rewrite O, out_sum_app in *. split; [lia|]. intros X. specialize (K1 (act_unlocked E a cur X)). lia.
Qed.
Print Assumptions C24_outputs_are_sent.

(** The balance an engine knows of (SEND checks it, BALANCE reads it), after any number of instructions: the balance at the
    start less what this call has sent, and less what the contract sent in nested calls before the first use ([d]). *)
Theorem C24_engine_balance_exact : forall E depth depends n s s' cur,
  backend_ok (e_backend E) -> 0 < e_fee_exec E -> mints_ok s -> st_ok s -> s_limit s < e_fee_exec E * N.of_nat depth ->
  s_bal s = [] -> s_outs s = [] ->
  steps (step (e_backend E) (e_ext E) (remote_call E depth depends) (read_contract E)) n s s' ->
  match lfind addr_eqb cur (s_bal s') with
  | None => out_sum cur (s_outs s') = 0
  | Some known => exists d, known + out_sum cur (s_outs s') + d = balance_of (e_backend E) (s_world s) (s_contract s) cur
                            /\ spent (s_world s) (s_contract s) cur + d <= spent (s_world s') (s_contract s) cur
  end.
Proof. intros E depth depends n s s' cur B F M O L B0 O0 H. exact (view_kept E B F depth depends n s s' cur H M O L B0 O0). Qed.
Print Assumptions C24_engine_balance_exact.
(** BALANCE stores just that number. *)
Theorem C24_balance_instruction : forall bk d currency s s', backend_ok bk -> mints_ok s -> st_ok s ->
  read_balance bk d currency s = Ok tt s' ->
  exists cur n, visible bk s currency = Some (VBinary cur) /\ lfind addr_eqb cur (s_bal s') = Some n /\ visible bk s' d = Some (VUint n).
Proof. exact balance_instruction. Qed.
Print Assumptions C24_balance_instruction.

(** C56: a call, whatever it calls, leaves the storage of every contract that was not locked for the transaction as it was,
    sends nothing from it and changes its balance only by the deposit; also when the call fails. *)
Theorem C56_other_contracts_untouched : forall E depth ex address user deposit name args is_init limit w c,
  backend_ok (e_backend E) -> 0 < e_fee_exec E -> ram_ok (w_ram w) -> limit < e_fee_exec E * N.of_nat depth ->
  e_locked E c = false ->
  match exec_call E depth ex address user deposit name args is_init (engine_new address (e_version E) limit false w) with
  | Ok _ s | Throw s | Undefined s =>
    same_storage (e_backend E) c w (s_world s) /\
    (forall cur, spent (s_world s) c cur = spent w c cur) /\
    (forall cur, c <> address -> balance_of (e_backend E) (s_world s) c cur = balance_of (e_backend E) w c cur)
  | Fuel => False
  end.
Proof.
  intros E depth ex a u d name args ii limit w c B F R L LK0. pose proof (act_unlocked E a c LK0) as LK.
  pose proof (call_ok E B depth ex a u d name args ii limit w F R L) as K.
  assert (forall w1 s, RW (e_backend E) (act E a) w1 (s_world s) -> w1 = w \/ w1 = dep_world E d w a ->
    same_storage (e_backend E) c w (s_world s) /\ (forall cur, spent (s_world s) c cur = spent w c cur) /\
    (forall cur, c <> a -> balance_of (e_backend E) (s_world s) c cur = balance_of (e_backend E) w c cur)) as G.
  { intros w1 s W EW. assert (same_storage (e_backend E) c w w1) as S1.
    { destruct EW as [->| ->]; [apply same_storage_refl|apply dep_world_storage]. }
    assert (forall cur, spent w1 c cur = spent w c cur) as S2. { destruct EW as [->| ->]; auto. }
    assert (forall cur, c <> a -> balance_of (e_backend E) w1 c cur = balance_of (e_backend E) w c cur) as S3.
    { intros cur NE. destruct EW as [->| ->]; auto. rewrite dep_world_balance. unfold deposited. destruct d as [(cur', n)|]; [|lia].
      destruct (addr_eqb_spec a c); [congruence|]. simpl. lia. }
    pose proof (rw_storage _ _ _ _ W c LK) as (P1 & P2 & P3). destruct S1 as (Q1 & Q2 & Q3).
    split; [split; [|split]; intros; congruence|].
    split; [intros; rewrite (rw_unspent _ _ _ _ W c cur LK); auto|].
    intros cur NE. pose proof (rw_bal _ _ _ _ W c cur) as X. rewrite (rw_unspent _ _ _ _ W c cur LK) in X. rewrite <- S3 by auto. lia. }
  destruct (exec_call _ _ _ _ _ _ _ _ _ _); auto.
  - destruct K. eapply G; eauto.
  - destruct K; eapply G; eauto.
  - destruct K; eapply G; eauto.
Qed.
Print Assumptions C56_other_contracts_untouched.
(** The same holds of an address that has no executable contract, locked or not, unless the call itself is to this address. *)
Theorem C56_only_executables_act : forall E depth ex address user deposit name args is_init limit w c,
  backend_ok (e_backend E) -> 0 < e_fee_exec E -> ram_ok (w_ram w) -> limit < e_fee_exec E * N.of_nat depth ->
  runs E c = false -> c <> address ->
  match exec_call E depth ex address user deposit name args is_init (engine_new address (e_version E) limit false w) with
  | Ok _ s | Throw s | Undefined s =>
    same_storage (e_backend E) c w (s_world s) /\
    (forall cur, spent (s_world s) c cur = spent w c cur) /\
    (forall cur, balance_of (e_backend E) (s_world s) c cur = balance_of (e_backend E) w c cur)
  | Fuel => False
  end.
Proof.
  intros E depth ex a u d name args ii limit w c B F R L NR NE.
  assert (LK : act E a c = false).
  { unfold act, may. rewrite NR. destruct (addr_eqb_spec c a); [contradiction|]. apply andb_false_r. }
  pose proof (call_ok E B depth ex a u d name args ii limit w F R L) as K.
  assert (forall w1 s, RW (e_backend E) (act E a) w1 (s_world s) -> w1 = w \/ w1 = dep_world E d w a ->
    same_storage (e_backend E) c w (s_world s) /\ (forall cur, spent (s_world s) c cur = spent w c cur) /\
    (forall cur, balance_of (e_backend E) (s_world s) c cur = balance_of (e_backend E) w c cur)) as G.
  { intros w1 s W EW. assert (same_storage (e_backend E) c w w1) as S1.
    { destruct EW as [->| ->]; [apply same_storage_refl|apply dep_world_storage]. }
    assert (forall cur, spent w1 c cur = spent w c cur) as S2. { destruct EW as [->| ->]; auto. }
    assert (forall cur, balance_of (e_backend E) w1 c cur = balance_of (e_backend E) w c cur) as S3.
    { intros cur. destruct EW as [->| ->]; auto. rewrite dep_world_balance. unfold deposited. destruct d as [(cur', n)|]; [|lia].
      destruct (addr_eqb_spec a c); [congruence|]. simpl. lia. }
    pose proof (rw_storage _ _ _ _ W c LK) as (P1 & P2 & P3). destruct S1 as (Q1 & Q2 & Q3).
    split; [split; [|split]; intros; congruence|].
    split; [intros; rewrite (rw_unspent _ _ _ _ W c cur LK); auto|].
    intros cur. pose proof (rw_bal _ _ _ _ W c cur) as X. rewrite (rw_unspent _ _ _ _ W c cur LK) in X. rewrite <- S3. lia. }
  destruct (exec_call _ _ _ _ _ _ _ _ _ _); auto.
  - destruct K. eapply G; eauto.
  - destruct K; eapply G; eauto.
  - destruct K; eapply G; eauto.
Qed.
Print Assumptions C56_only_executables_act.

(** C57: calling a contract through the API ends, and changes neither the storage nor the balance of any contract. *)
Theorem C57_api_call_changes_nothing : forall E b m address user deposit args version limit ro w,
  backend_ok (e_backend E) -> ram_ok (w_ram w) ->
  match call_contract E b m address user deposit args (engine_new address version limit ro w) with
  | Ok _ s | Throw s | Undefined s =>
    (forall c, same_storage (e_backend E) c w (s_world s)) /\
    (forall c cur, balance_of (e_backend E) (s_world s) c cur = balance_of (e_backend E) w c cur) /\
    (forall c cur, spent (s_world s) c cur = spent w c cur)
  | Fuel => False
  end.
Proof.
  intros E b m a u d args v l ro w B R. set (s0 := engine_new a v l ro w).
  assert (IK (e_backend E) (fun _ => false) s0 s0) as K0. { apply IK_refl; [constructor|apply st_ok_new; auto]. }
  pose proof (ik_api E B s0 b m a u d args K0) as K. unfold hb in K.
  assert (forall s, RW (e_backend E) (fun _ => false) w (s_world s) ->
    (forall c, same_storage (e_backend E) c w (s_world s)) /\
    (forall c cur, balance_of (e_backend E) (s_world s) c cur = balance_of (e_backend E) w c cur) /\
    (forall c cur, spent (s_world s) c cur = spent w c cur)) as G.
  { intros s W. split; [intros; apply (rw_storage _ _ _ _ W); auto|].
    split; intros c cur; [|apply (rw_unspent _ _ _ _ W); auto].
    pose proof (rw_bal _ _ _ _ W c cur) as X. rewrite (rw_unspent _ _ _ _ W c cur) in X by auto. lia. }
  destruct (call_contract _ _ _ _ _ _ _ _); auto; apply G.
  - destruct K as (K & _). exact (ik_world _ _ _ _ K).
  - exact (tu_world _ _ _ _ K).
  - exact (tu_world _ _ _ _ K).
Qed.
Print Assumptions C57_api_call_changes_nothing.
