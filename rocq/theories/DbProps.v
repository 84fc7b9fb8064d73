(** Properties C01-C06 of the storage engine. Specification: DbSpec.v. *)
Require Import List NArith Lia Bool.
Require Import Verif.OrdLib Verif.DbModel Verif.DbSpec Verif.DbRefineProofs Verif.DbPropsProofs.
Import ListNotations.
Open Scope N_scope.

(** Histories used in the examples: numbers as keys and values. *)
Definition ex_ops : list (@op N N) :=
  [OInsert 7 100; OInsert 7 101; OInsert 3 30; OCommit 1 true; OInsert 7 102; OCommit 2 true; OInsert 9 90;
   OCommit 5 true; OInsert 7 103; OCommit 6 false; OInsert 3 31].

(** The comparator the node uses (length first, then memcmp) is such an order, so that the theorems below apply. *)
Theorem C01_default_comparator : TotalCmp default_cmp.
Proof. exact default_cmp_total. Qed.
Print Assumptions C01_default_comparator.

(** C01: after any sequence of inserts, commits (with or without flushing and merging) and reverts on a fresh
    table, a lookup returns the last write of the key that is not newer than [mv] among the surviving writes.
    [ucall]: calls a user can make: versions are 32 bit, flush() only as part of a commit. *)
Theorem C01_lookup_newest : forall (K V : Type) (kcmp : K -> K -> comparison), TotalCmp kcmp ->
  forall (lf : nat) (ops : list (@op K V)), Forall ucall ops ->
  exists s, after kcmp lf ops = Some s /\
    forall k mv, find kcmp (s_tab s) k mv = a_find (key_eqb kcmp) (spec_after ops) k mv.
Proof. exact @C01_proof. Qed.
Print Assumptions C01_lookup_newest.

Example C01_ex : Forall ucall ex_ops /\ TotalCmp N.compare /\
  exists s, after N.compare 2 ex_ops = Some s /\ length (t_blocks (s_tab s)) = 2%nat /\
  find N.compare (s_tab s) 7 0 = Some 101 /\ find N.compare (s_tab s) 7 9 = Some 103 /\ find N.compare (s_tab s) 8 9 = None.
Proof. split; [repeat constructor; simpl; unfold u32max; lia|]. split; [exact Ncompare_total|]. eexists. split; [vm_compute; reflexivity|]. repeat split. Qed.

(** C02: which commits flush to disk, and how many blocks are merged at a time, is not observable. *)
Theorem C02_flush_merge_invisible : forall (K V : Type) (kcmp : K -> K -> comparison), TotalCmp kcmp ->
  forall lf1 lf2 (ops1 ops2 : list (@op K V)), Forall ucall ops1 -> map forget_flush ops1 = map forget_flush ops2 ->
  exists s1 s2, after kcmp lf1 ops1 = Some s1 /\ after kcmp lf2 ops2 = Some s2 /\
    t_cur (s_tab s1) = t_cur (s_tab s2) /\
    forall k mv, find kcmp (s_tab s1) k mv = find kcmp (s_tab s2) k mv.
Proof. exact @C02_proof. Qed.
Print Assumptions C02_flush_merge_invisible.

Example C02_ex : exists s1 s2, after N.compare 2 ex_ops = Some s1 /\ after N.compare 2 (map forget_flush ex_ops) = Some s2 /\
  length (t_blocks (s_tab s1)) = 2%nat /\ length (t_blocks (s_tab s2)) = 0%nat.
Proof. eexists; eexists. split; [vm_compute; reflexivity|]. split; [vm_compute; reflexivity|]. split; reflexivity. Qed.

(** C03: revert(n) on any reachable table: lookups see exactly the writes of versions below [n]. *)
Theorem C03_revert_exact : forall (K V : Type) (kcmp : K -> K -> comparison), TotalCmp kcmp ->
  forall lf (ops : list (@op K V)) n s, Forall ucall ops -> after kcmp lf ops = Some s -> n <= t_cur (s_tab s) ->
  exists s', after kcmp lf (ops ++ [ORevert n]) = Some s' /\ t_cur (s_tab s') = n /\
    (forall k mv, mv < n -> find kcmp (s_tab s') k mv = find kcmp (s_tab s) k mv) /\
    (forall k mv, 0 < n -> n <= mv -> find kcmp (s_tab s') k mv = find kcmp (s_tab s) k (n - 1)) /\
    (forall k mv, n = 0 -> find kcmp (s_tab s') k mv = None).
Proof. exact @C03_proof. Qed.
Print Assumptions C03_revert_exact.

Example C03_ex : exists s s', after N.compare 2 ex_ops = Some s /\ after N.compare 2 (ex_ops ++ [ORevert 5]) = Some s' /\
  5 <= t_cur (s_tab s) /\ find N.compare (s_tab s) 7 9 = Some 103 /\ find N.compare (s_tab s') 7 9 = Some 102.
Proof. eexists; eexists. split; [vm_compute; reflexivity|]. split; [vm_compute; reflexivity|]. repeat split. vm_compute. discriminate. Qed.

(** C04: a history with any number of process deaths, each between two file system effects of a call (or of the
    reopening itself), with any part of the buffered log written out: the table can always be opened, and equals a
    state the specification allows, see [spec_event] and [a_survives]: exactly the writes committed before (or also
    those of the call in progress) survive. The finalisation of a block merge counts as one effect, see C06. *)
Theorem C04_crash_safe : forall (K V : Type) (kcmp : K -> K -> comparison), TotalCmp kcmp ->
  forall lf (evs : list (@event K V)), Forall uevent evs ->
  exists s a, run kcmp lf evs = Some s /\ spec_run evs (@a_init K V) a /\
    t_cur (s_tab s) = a_cur a /\ forall k mv, find kcmp (s_tab s) k mv = a_find (key_eqb kcmp) a k mv.
Proof. exact @C04_proof. Qed.
Print Assumptions C04_crash_safe.

(** The same in terms of lookups only: dying between calls loses nothing that was written before the current version. *)
Theorem C04_committed_data_survives : forall (K V : Type) (kcmp : K -> K -> comparison), TotalCmp kcmp ->
  forall lf (evs : list (@event K V)) s n opens, Forall uevent evs -> run kcmp lf evs = Some s ->
  exists s', run kcmp lf (evs ++ [EvCrash None 0 n opens]) = Some s' /\
    (forall k mv, mv < t_cur (s_tab s) -> find kcmp (s_tab s') k mv = find kcmp (s_tab s) k mv) /\
    (forall k mv, 0 < t_cur (s_tab s) -> t_cur (s_tab s) <= mv -> find kcmp (s_tab s') k mv = find kcmp (s_tab s) k (t_cur (s_tab s) - 1)).
Proof. exact @C04_survives_proof. Qed.
Print Assumptions C04_committed_data_survives.

(** a crash in the third effect of a flushing commit (block written, log not yet truncated), then one in the reopening *)
Definition ex_evs : list (@event N N) :=
  map EvOp ex_ops ++ [EvCrash (Some (OCommit 7 true)) 3 0 [(1%nat, 1%nat)]; EvOp (OInsert 3 32)].
Example C04_ex : Forall uevent ex_evs /\ exists s, run N.compare 2 ex_evs = Some s /\ t_cur (s_tab s) = 7 /\
  find N.compare (s_tab s) 3 6 = Some 31 /\ find N.compare (s_tab s) 3 7 = Some 32.
Proof. split; [repeat constructor; simpl; unfold u32max; lia|]. eexists. split; [vm_compute; reflexivity|]. repeat split. Qed.

(** C05 is false in general: a commit followed by a flush truncates the log that holds the commit record, so that the
    version is rebuilt from the newest write found in the blocks. No crash is needed, only a restart. *)
Theorem C05_refuted : exists (evs : list (@event N N)) s s' n,
  Forall uevent evs /\ run N.compare 4 (evs ++ [EvOp (OCommit n true)]) = Some s /\ t_cur (s_tab s) = n /\
  run N.compare 4 (evs ++ [EvOp (OCommit n true); EvCrash None 0 0 []]) = Some s' /\ t_cur (s_tab s') < n.
Proof. exact @C05_refuted_proof. Qed.
Print Assumptions C05_refuted.

(** C05, the part that holds: if the last commit did not flush, the version is the committed one after any restart. *)
Theorem C05_version_survives_partial : forall (K V : Type) (kcmp : K -> K -> comparison), TotalCmp kcmp ->
  forall lf (evs : list (@event K V)) s n (ins : list (K * V)) j, Forall uevent evs -> run kcmp lf evs = Some s ->
  t_cur (s_tab s) < n -> n < 4294967295 ->
  exists s', run kcmp lf (evs ++ EvOp (OCommit n false) :: map (fun p => EvOp (OInsert (fst p) (snd p))) ins ++ [EvCrash None 0 j []]) = Some s' /\
    t_cur (s_tab s') = n.
Proof. exact @C05_partial_proof. Qed.
Print Assumptions C05_version_survives_partial.

Example C05_ex : exists s, run N.compare 2 (map EvOp ex_ops) = Some s /\ t_cur (s_tab s) < 10 /\
  exists s', run N.compare 2 (map EvOp ex_ops ++ EvOp (OCommit 10 false) :: map (fun p => EvOp (OInsert (fst p) (snd p))) [(1, 2)] ++ [EvCrash None 0 1 []]) = Some s'
  /\ find N.compare (s_tab s') 1 20 = None.
Proof. eexists. split; [vm_compute; reflexivity|]. split; [vm_compute; reflexivity|]. eexists. split; [vm_compute; reflexivity|]. reflexivity. Qed.

(** C06 is false: dying between the rename of the merged block and the last unlink of its sources leaves sources in
    place at the next open; the next merge and restart then delete a block holding committed data. *)
Theorem C06_refuted : exists (ops1 ops2 : list (@op N N)) o m s1 s2 s3,
  Forall ucall ops1 /\ ucall o /\ Forall ucall ops2 /\
  after N.compare 2 ops1 = Some s1 /\
  fine_crash N.compare 2 s1 o m = Some s2 /\
  run_from N.compare 2 s2 (map EvOp ops2 ++ [EvCrash None 0 0 []]) = Some s3 /\
  (** the merge crash left a write in two blocks, *)
  ~ NoDup (flat_map (fun b => map fst (b_entries b)) (t_blocks (s_tab s2))) /\
  (** and in the end a committed write is gone: the specification finds it in every state it allows *)
  (forall a, spec_run (map EvOp (ops1 ++ [o] ++ ops2)) (@a_init N N) a -> a_find N.eqb a 2 4 = Some 22) /\
  find N.compare (s_tab s3) 2 4 = None.
Proof. exact @C06_refuted_proof. Qed.
Print Assumptions C06_refuted.
