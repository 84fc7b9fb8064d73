(** C32, C33, C61: validation of transactions on several threads *)
Require Import List Arith NArith ZArith Bool Lia.
From Verif Require Import BytesLib OrdLib VarModel InstrModel EngineModel EngineUpper ExecModel ExecCases StorModel TxModel TxProps BlockModel BlockProps
  ParModel ParSpec IsoProofs LockProofs CtxProofs ParProofs.
Import ListNotations.
Open Scope N_scope.

Lemma nth_error_ext {A} (l l' : list A) : (forall i, nth_error l i = nth_error l' i) -> l = l'.
Proof. revert l'. induction l as [|x l IH]; intros [|y l'] H; auto; [specialize (H O); discriminate|specialize (H O); discriminate|]. f_equal; [specialize (H O); now injection H|]. apply IH. intros i. exact (H (S i)). Qed.
(** ** C32.  However the steps of the threads are interleaved, and with any number of threads: when all tasks are done, every transaction has the result, and the
    contracts have the state, of executing the transactions one after the other.  (The validation of a block has no deadline.) *)
Theorem C32_same_as_one_by_one : forall n0 G C bal txs threads r d k s,
  prepare_all G context_empty txs = Some C -> distinct txs -> depends_ok G n0 -> contracts_ok n0 ->
  let n := with_locks C n0 in let s0 := SCache r (SDb d) in
  steps n C bal txs threads false (start s0) k s -> all_done txs s ->
  map (p_phase s) (seq 0 (length txs)) = map (fun e => Finished (fst e) (snd e)) (fst (sequential n bal txs s0)) /\
  exists st l, p_hist s = st :: l /\ same_contents st (snd (sequential n bal txs s0)).
Proof.
  intros n0 G C bal txs threads r d k s PREP D DO KN n s0 ST AD.
  destruct (parallel_result n0 G C bal txs threads s0 PREP D DO KN (ex_intro _ r (ex_intro _ d eq_refl)) k s ST) as (FIN & DONE).
  destruct (DONE AD) as (L & AF & SC). split; [|exact SC]. fold n in FIN, L. apply nth_error_ext. intros i.
  destruct (Nat.lt_ge_cases i (length txs)) as [LI|GE].
  - destruct (AF i LI) as (o & ok & PH). specialize (FIN i o ok PH). rewrite (map_nth_error _ _ _ FIN). cbn [fst snd].
    assert (E : nth_error (seq 0 (length txs)) i = Some i) by (rewrite (nth_error_nth' _ 0%nat) by (rewrite seq_length; lia); now rewrite List.seq_nth by lia).
    rewrite (map_nth_error _ _ _ E). now rewrite PH.
  - transitivity (@None phase); [|symmetry]; apply nth_error_None; rewrite map_length; [rewrite seq_length; lia|fold n; lia].
Qed.
Print Assumptions C32_same_as_one_by_one.
(** Before that, what is done already is as it will be. *)
Theorem C32_results_are_final : forall n0 G C bal txs threads r d k s i o ok,
  prepare_all G context_empty txs = Some C -> distinct txs -> depends_ok G n0 -> contracts_ok n0 ->
  let n := with_locks C n0 in let s0 := SCache r (SDb d) in
  steps n C bal txs threads false (start s0) k s -> p_phase s i = Finished o ok -> nth_error (fst (sequential n bal txs s0)) i = Some (o, ok).
Proof.
  intros n0 G C bal txs threads r d k s i o ok PREP D DO KN n s0 ST PH.
  destruct (parallel_result n0 G C bal txs threads s0 PREP D DO KN (ex_intro _ r (ex_intro _ d eq_refl)) k s ST) as (FIN & _). now apply FIN.
Qed.
Print Assumptions C32_results_are_final.
(** The transactions of a block are all accepted if and only if they are accepted one after the other, see [run_txs] of C28 to C31, and the contracts have the same state. *)
Lemma run_sequential n bal l : forall s s', run_txs n bal l s = Some s' <->
  Forall (fun e => exists r w, e = (VDone r w, true)) (fst (sequential n bal l s)) /\ snd (sequential n bal l s) = s'.
Proof.
  induction l as [|t l IH]; intros s s'; cbn [run_txs sequential].
  - cbn. split; [intros [= <-]; auto|intros (_ & ->); auto].
  - assert (NO : forall o, (forall r w, o <> VDone r w) -> None = Some s' <->
      Forall (fun e => exists r w, e = (VDone r w, true)) (fst (let '(s1, ok) := apply_ops (writes o) s in let '(rest, s2) := sequential n bal l s1 in ((o, ok) :: rest, s2))) /\
      snd (let '(s1, ok) := apply_ops (writes o) s in let '(rest, s2) := sequential n bal l s1 in ((o, ok) :: rest, s2)) = s').
    { intros o H. split; [discriminate|]. destruct (apply_ops _ s) as (s1, ok). destruct (sequential n bal l s1). cbn. intros (F & _). inversion F as [|? ? (r & w & E)]; subst.
      injection E as -> _. destruct (H r w eq_refl). }
    destruct (validate n (backend_of s) t bal) as [| |r w| |] eqn:V; try (apply NO; discriminate). clear NO.
    assert (CT : commit_tx w s = let '(s1, ok) := apply_ops (writes (VDone r w)) s in if ok then Some s1 else None) by (destruct w; cbn [commit_tx writes]; [apply commit_ops_run|reflexivity]).
    rewrite CT. clear CT. destruct (apply_ops (writes (VDone r w)) s) as (s1, ok). specialize (IH s1 s'). destruct (sequential n bal l s1) as (rest, s2). cbn [fst snd] in *. destruct ok.
    + rewrite IH. split; intros (F & E); (split; [|exact E]); [constructor; eauto|now inversion F].
    + split; [discriminate|]. intros (F & _). inversion F as [|? ? (r' & w' & E)]. discriminate.
Qed.
Theorem C32_block_verdict : forall n0 G C bal txs threads r d k s,
  prepare_all G context_empty txs = Some C -> distinct txs -> depends_ok G n0 -> contracts_ok n0 ->
  let n := with_locks C n0 in let s0 := SCache r (SDb d) in
  steps n C bal txs threads false (start s0) k s -> all_done txs s ->
  ((forall i, (i < length txs)%nat -> exists x w, p_phase s i = Finished (VDone x w) true) <-> exists s', run_txs n bal txs s0 = Some s') /\
  (forall s', run_txs n bal txs s0 = Some s' -> exists st l, p_hist s = st :: l /\ same_contents st s').
Proof.
  intros n0 G C bal txs threads r d k s PREP D DO KN n s0 ST AD.
  destruct (C32_same_as_one_by_one n0 G C bal txs threads r d k s PREP D DO KN ST AD) as (M & SC). fold n s0 in M, SC. split.
  - split.
    + intros A. exists (snd (sequential n bal txs s0)). apply run_sequential. split; auto. apply Forall_forall. intros (o, ok) I.
      apply (in_map (fun e => Finished (fst e) (snd e))) in I. rewrite <- M in I. apply in_map_iff in I as (i & E & I). apply in_seq in I. destruct (A i ltac:(lia)) as (x & w & PH).
      rewrite E in PH. injection PH as -> ->. eauto.
    + intros (s' & R). apply run_sequential in R as (F & _). intros i LI. assert (I : In (p_phase s i) (map (p_phase s) (seq 0 (length txs)))) by (apply in_map, in_seq; lia).
      rewrite M in I. apply in_map_iff in I as (e & E & I). rewrite Forall_forall in F. destruct (F e I) as (x & w & ->). exists x, w. now rewrite <- E.
  - intros s' R. apply run_sequential in R as (_ & <-). exact SC.
Qed.
Print Assumptions C32_block_verdict.

(** Three transactions: the first and the last one call contract A, which calls B; the other one calls nothing. *)
Definition deps1 : deps := mk_deps (fun a => if addr_eqb a aA then [aB] else []) 4 10 5.
Definition txp (id : N) : tx :=
  let t := txn id 2048 500000 None in
  mk_tx true (t_id t) 1 100 2048 500000 (t_sender t) (t_inputs t) [mk_txout aB cur0 50 None; mk_txout aO zero_addr 7 None] None [] 50000 2 (t_key t) (t_sol t) None.
Definition txs1 : list tx := [txn 21 2048 500000 None; txp 22; txn 23 2048 500000 None].
Definition ctx1 : context := match prepare_all deps1 context_empty txs1 with Some C => C | None => context_empty end.
Lemma prepared1 : prepare_all deps1 context_empty txs1 = Some ctx1.
Proof. reflexivity. Qed.
Lemma distinct1 : distinct txs1.
Proof. unfold distinct. repeat (constructor; [cbn; intuition discriminate|]). constructor. Qed.
Lemma depends1 : depends_ok deps1 (node1 90000).
Proof.
  intros a k ex H X e I. cbn [node1 node0 n_contract env0 e_contract] in H. cbn [deps1 g_dep]. destruct (addr_eqb a aA).
  - injection H as <-. injection X as <-. destruct I as [<-|[]]. now left.
  - destruct (addr_eqb a aB); [|discriminate]. injection H as <-. injection X as <-. destruct I.
Qed.
Lemma known1 : contracts_ok (node1 90000).
Proof. intros a H. cbn [node1 node0 n_contract env0 e_contract n_exists] in *. destruct (addr_eqb a aA); auto. destruct (addr_eqb a aB); auto. Qed.
Definition node1' : node := with_locks ctx1 (node1 90000).
(** the last one waits for the first one; the last one finds what the first one wrote and writes less *)
Example C32_case : c_wait ctx1 = [(repeat 23 32, repeat 21 32); (repeat 23 32, repeat 21 32)] /\
  map (fun e => (option_map rs_fail (result_of (fst e)), length (writes (fst e)), snd e)) (fst (sequential node1' balances1 txs1 (block_storage db1)))
  = [(Some false, 3%nat, true); (Some false, 0%nat, true); (Some false, 1%nat, true)].
Proof. split; vm_compute; reflexivity. Qed.
(** a state in which two transactions are executed at the same time while the last one waits *)
Example C32_at_the_same_time : exists k s, steps node1' ctx1 balances1 txs1 3 false (start (block_storage db1)) k s /\
  p_phase s 0 = Running 1 /\ p_phase s 1 = Running 1 /\ p_phase s 2 = Waiting.
Proof.
  eexists 8%nat. eexists. split.
  - eapply steps_S; [eapply steps_S; [eapply steps_S; [eapply steps_S; [eapply steps_S; [eapply steps_S; [eapply steps_S; [eapply steps_S; [apply steps_0|]|]|]|]|]|]|]|].
    + eapply (step_pick _ _ _ _ _ _ 0); [cbn; lia|reflexivity|lia|vm_compute; lia].
    + eapply (step_pick _ _ _ _ _ _ 1); [cbn; lia|reflexivity|intros [|[|j]] L; [discriminate|lia|lia]|vm_compute; lia].
    + eapply (step_pick _ _ _ _ _ _ 2); [cbn; lia|reflexivity|intros [|[|j]] L; [discriminate|discriminate|lia]|vm_compute; lia].
    + eapply (step_begin _ _ _ _ _ _ 2); reflexivity.
    + eapply (step_begin _ _ _ _ _ _ 1); reflexivity.
    + eapply (step_begin _ _ _ _ _ _ 0); reflexivity.
    + eapply (step_run _ _ _ _ _ _ 0); [reflexivity|reflexivity|]. intros p [E|[E|[]]]; vm_compute in E; discriminate.
    + eapply (step_run _ _ _ _ _ _ 1); [reflexivity|reflexivity|]. intros p [E|[E|[]]]; vm_compute in E; discriminate.
  - repeat split; reflexivity.
Qed.

(** ** C33.  With at least one thread the tasks of a block never get stuck, and there is a bound on the number of their steps: they all finish, for every schedule. *)
Theorem C33_no_deadlock : forall n0 G C bal txs threads r d k s,
  prepare_all G context_empty txs = Some C -> distinct txs -> depends_ok G n0 -> contracts_ok n0 -> (0 < threads)%nat ->
  let n := with_locks C n0 in let s0 := SCache r (SDb d) in
  steps n C bal txs threads false (start s0) k s ->
  (all_done txs s \/ exists s', step n C bal txs threads false s s') /\
  (k <= list_sum (map (fun e => 5 + length (writes (fst e))) (fst (sequential n bal txs s0))))%nat.
Proof.
  intros n0 G C bal txs threads r d k s PREP D DO KN TH n s0 ST. pose proof (ex_intro _ r (ex_intro _ d eq_refl) : shaped s0) as SH. split.
  - eapply (progress n0 G C bal txs threads s0); eauto.
  - eapply (bounded_spec n0 G C bal txs threads s0); eauto.
Qed.
Print Assumptions C33_no_deadlock.
(** from every state that can be reached, one in which all are done *)
Theorem C33_can_finish : forall n0 G C bal txs threads r d k s,
  prepare_all G context_empty txs = Some C -> distinct txs -> depends_ok G n0 -> contracts_ok n0 -> (0 < threads)%nat ->
  let n := with_locks C n0 in let s0 := SCache r (SDb d) in
  steps n C bal txs threads false (start s0) k s ->
  exists k' s', (k <= k')%nat /\ steps n C bal txs threads false (start s0) k' s' /\ all_done txs s'.
Proof.
  intros n0 G C bal txs threads r d k s PREP D DO KN TH n s0.
  remember (list_sum (map (fun e => 5 + length (writes (fst e))) (fst (sequential n bal txs s0))))%nat as m eqn:EM.
  assert (K : forall x k s, (m - k <= x)%nat -> steps n C bal txs threads false (start s0) k s ->
    exists k' s', (k <= k')%nat /\ steps n C bal txs threads false (start s0) k' s' /\ all_done txs s').
  { induction x as [|x IH]; intros k1 s1 L ST; destruct (C33_no_deadlock n0 G C bal txs threads r d k1 s1 PREP D DO KN TH ST) as ([AD|(s' & SP)] & B); eauto.
    - pose proof (steps_S _ _ _ _ _ _ _ _ _ _ ST SP) as ST'. destruct (C33_no_deadlock n0 G C bal txs threads r d _ _ PREP D DO KN TH ST') as (_ & B'). fold n s0 in B'. lia.
    - pose proof (steps_S _ _ _ _ _ _ _ _ _ _ ST SP) as ST'. destruct (IH (S k1) s' ltac:(lia) ST') as (k' & s2 & L2 & ST2 & AD). exists k', s2. split; [lia|]. auto. }
  intros ST. apply (K (m - k)%nat k s); auto.
Qed.
Print Assumptions C33_can_finish.
(** the three transactions of above on one thread *)
Example C33_case : exists k s, steps node1' ctx1 balances1 txs1 1 false (start (block_storage db1)) k s /\ all_done txs1 s.
Proof.
  destruct (C33_can_finish (node1 90000) deps1 ctx1 balances1 txs1 1 ram_empty db1 0 (start (block_storage db1)) prepared1 distinct1 depends1 known1 ltac:(lia) (steps_0 _ _ _ _ _ _ _)) as (k & s & _ & ST & AD).
  exists k, s. auto.
Qed.

(** ** C61.  The validation of new transactions and the execution for a block that is to be made have a deadline.  A task that is started after the deadline returns
    without signalling; one that was started before the deadline may be waiting for it.  This is the only way in which they get stuck: *)
Theorem C61_deadline_partial : forall n0 G C bal txs threads r d k s,
  prepare_all G context_empty txs = Some C -> distinct txs -> (0 < threads)%nat ->
  let n := with_locks C n0 in let s0 := SCache r (SDb d) in
  steps n C bal txs threads true (start s0) k s ->
  all_done txs s \/ (exists s' i, step n C bal txs threads true s s' /\ p_phase s' i <> p_phase s i) \/
  exists i j t t' l l' c, nth_error txs i = Some t /\ nth_error txs j = Some t' /\ (j < i)%nat /\ p_phase s i = Waiting /\ p_phase s j = Skipped /\
    mutate_set G t = Some l /\ mutate_set G t' = Some l' /\ In c l /\ In c l'.
Proof.
  intros n0 G C bal txs threads r d k s PREP D TH n s0 ST.
  destruct (lprogress n0 G C bal txs threads s0 PREP D k s TH ST) as [A|[A|(i & j & t & t' & E & E' & L & PI & PJ & c & I & I')]]; auto. right. right.
  destruct (prepared G txs C PREP) as (_ & F). rewrite Forall_forall in F.
  exists i, j, t, t', (locks G t), (locks G t'), c. split; auto. split; auto. split; auto. split; auto. split; auto. split; [apply F; eapply nth_error_In; eauto|].
  split; [apply F; eapply nth_error_In; eauto|]. auto.
Qed.
Print Assumptions C61_deadline_partial.
(** the three transactions of above, when the deadline is over before the second one starts *)
Example C61_case : exists k s, steps node1' ctx1 balances1 txs1 2 true (start (block_storage db1)) k s /\ p_phase s 0 = Waiting /\ p_phase s 1 = Skipped.
Proof.
  eexists 5%nat. eexists. split.
  - eapply steps_S; [eapply steps_S; [eapply steps_S; [eapply steps_S; [eapply steps_S; [apply steps_0|]|]|]|]|].
    + eapply (step_pick _ _ _ _ _ _ 0); [cbn; lia|reflexivity|lia|vm_compute; lia].
    + eapply (step_begin _ _ _ _ _ _ 0); reflexivity.
    + eapply (step_pick _ _ _ _ _ _ 1); [cbn; lia|reflexivity|intros [|[|j]] L; [discriminate|lia|lia]|vm_compute; lia].
    + eapply step_late; reflexivity.
    + eapply (step_skip _ _ _ _ _ _ 1); reflexivity.
  - split; reflexivity.
Qed.
(** And it happens: the second task waits forever, and the node with it. *)
Lemma stuck2 s : p_phase s 0%nat = Skipped -> p_phase s 1%nat = Waiting -> p_signal s = [] -> (forall i, (2 <= i)%nat -> p_phase s i = Queued) ->
  let txs := [txn 21 2048 500000 None; txn 23 2048 500000 None] in
  let C := match prepare_all deps1 context_empty txs with Some C => C | None => context_empty end in
  forall n bal threads k s', steps n C bal txs threads true s k s' ->
  p_phase s' 0%nat = Skipped /\ p_phase s' 1%nat = Waiting /\ p_signal s' = [] /\ (forall i, (2 <= i)%nat -> p_phase s' i = Queued).
Proof.
  intros P0 P1 SG P2 txs C n bal threads k s'. induction 1 as [|k s1 s2 _ (Q0 & Q1 & QS & Q2) SP]; auto.
  assert (IDX : forall i, p_phase s1 i <> Queued -> i = 0%nat \/ i = 1%nat) by (intros [|[|i]] H; auto; destruct H; apply Q2; lia).
  inversion SP; subst; clear SP; cbn [p_phase p_signal]; auto; exfalso.
  - destruct i as [|[|i]]; try congruence. cbn in H. lia.
  - destruct (IDX i ltac:(congruence)) as [->| ->]; congruence.
  - destruct (IDX i ltac:(congruence)) as [->| ->]; congruence.
  - destruct (IDX i ltac:(congruence)) as [->| ->]; [congruence|]. cbn in H0. injection H0 as <-. specialize (H1 (repeat 21 32)). rewrite QS in H1. apply H1; [now left|].
    right. now left.
  - destruct (IDX i ltac:(congruence)) as [->| ->]; congruence.
  - destruct (IDX i ltac:(congruence)) as [->| ->]; congruence.
  - destruct (IDX i ltac:(congruence)) as [->| ->]; congruence.
  - destruct (IDX i ltac:(congruence)) as [->| ->]; congruence.
Qed.
Theorem C61_deadline_refuted : exists n0 G C bal txs d k s,
  prepare_all G context_empty txs = Some C /\ distinct txs /\ depends_ok G n0 /\ contracts_ok n0 /\
  let n := with_locks C n0 in
  steps n C bal txs 2 true (start (block_storage d)) k s /\
  forall k' s', steps n C bal txs 2 true s k' s' -> ~ all_done txs s'.
Proof.
  exists (node1 90000), deps1, (match prepare_all deps1 context_empty [txn 21 2048 500000 None; txn 23 2048 500000 None] with Some C => C | None => context_empty end),
    balances1, [txn 21 2048 500000 None; txn 23 2048 500000 None], db1, 5%nat.
  eexists. split; [reflexivity|]. split; [unfold distinct; repeat (constructor; [cbn; intuition discriminate|]); constructor|]. split; [exact depends1|]. split; [exact known1|].
  cbv zeta. split.
  - eapply steps_S; [eapply steps_S; [eapply steps_S; [eapply steps_S; [eapply steps_S; [apply steps_0|]|]|]|]|].
    + eapply (step_pick _ _ _ _ _ _ 0); [cbn; lia|reflexivity|lia|vm_compute; lia].
    + eapply (step_pick _ _ _ _ _ _ 1); [cbn; lia|reflexivity|intros [|[|j]] L; [discriminate|lia|lia]|vm_compute; lia].
    + eapply (step_begin _ _ _ _ _ _ 1); reflexivity.
    + eapply step_late; reflexivity.
    + eapply (step_skip _ _ _ _ _ _ 0); reflexivity.
  - intros k' s' ST AD. apply stuck2 in ST; [|reflexivity|reflexivity|reflexivity|intros [|[|i]] L; [lia|lia|reflexivity]]. destruct ST as (_ & P1 & _).
    destruct (AD 1%nat ltac:(cbn; lia)) as (_ & NA). rewrite P1 in NA. discriminate.
Qed.
Print Assumptions C61_deadline_refuted.
