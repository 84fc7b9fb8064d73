(** C06, the part that holds. *)
Require Import List NArith Lia Bool.
Require Import Verif.OrdLib Verif.DbModel Verif.DbSpec Verif.DbRefineProofs Verif.DbPropsProofs Verif.DbProps Verif.DbMergeProofs.
Import ListNotations.
Open Scope N_scope.

(** C06, the part that holds. The process dies after any number [m] of the single system calls of a call [o], where a
    merge of blocks is a rename of the new block and one unlink per merged block, all separate system calls. If it does not
    die at a moment when a merged block is visible together with two or more of its sources, then the table opens again and
    from there on, whatever is called next and however often the process dies later on, it holds what it would hold had the
    call taken effect or not: see [spec_event] and [a_survives].
    Missing: two or more sources left (see C06_refuted), and later deaths inside another merge. *)
Theorem C06_merge_crash_partial : forall (K V : Type) (kcmp : K -> K -> comparison), TotalCmp kcmp ->
  forall lf (evs1 evs2 : list (@event K V)) s o m, Forall uevent evs1 -> Forall uevent evs2 -> ucall o ->
  run kcmp lf evs1 = Some s ->
  (forall before nb gone left after, op_effs kcmp lf (Some o) (s_tab s) = before ++ EMerge nb (gone ++ left) :: after ->
     m = (length (flat_map expand before) + 1 + length gone)%nat -> (length left <= 1)%nat) ->
  exists s2 s3 a, fine_crash kcmp lf s o m = Some s2 /\ run_from kcmp lf s2 evs2 = Some s3 /\
    spec_run (evs1 ++ EvCrash (Some o) m 0 [] :: evs2) (@a_init K V) a /\
    t_cur (s_tab s3) = a_cur a /\ forall k mv, find kcmp (s_tab s3) k mv = a_find (key_eqb kcmp) a k mv.
Proof.
  intros K V kcmp TK lf evs1 evs2 s o m U1 U2 Uo E A.
  destruct (@run_rel K V kcmp TK lf evs1 U1) as (s0 & a1 & E0 & R & S1). rewrite E in E0. injection E0 as E0. subst s0.
  destruct (fine_is_coarse kcmp TK lf s o m (rl_inv _ _ _ R)) as (m' & Em).
  { exact Uo. }
  { exact A. }
  assert (U : Forall uevent (evs1 ++ EvCrash (Some o) m' 0 [] :: evs2)).
  { apply Forall_app. split; auto. }
  destruct (C04_crash_safe K V kcmp TK lf _ U) as (s3 & a & E3 & S3 & C3 & F3).
  rewrite (run_app kcmp lf evs1 _ s E) in E3. cbn [sys_run] in E3. rewrite <- Em in E3.
  destruct (fine_crash kcmp lf s o m) as [s2|]; [|discriminate].
  exists s2, s3, a. repeat split; auto. clear - S3. revert S3. generalize (@a_init K V).
  induction evs1 as [|ev evs1 IH]; intros a0; cbn [app spec_run]; [auto|]. intros (x & Hx & H). exists x. auto.
Qed.
Print Assumptions C06_merge_crash_partial.

(** The third flush merges the first two blocks; the process dies with one of the two sources still there. *)
Definition mc_evs : list (@event N N) :=
  map EvOp [OInsert 1 11; OCommit 1 true; OInsert 2 22; OCommit 2 true; OInsert 1 13; OInsert 3 33].
Example C06_case : exists s, run N.compare 2 mc_evs = Some s /\
  (exists b nb ids, op_effs N.compare 2 (Some (OCommit 3 true)) (s_tab s) = b ++ [EMerge nb ids] /\ length (flat_map expand b) = 4%nat /\ length ids = 2%nat) /\
  forall s2, fine_crash N.compare 2 s (OCommit 3 true) 6 = Some s2 -> find N.compare (s_tab s2) 1 5 = Some 13 /\ find N.compare (s_tab s2) 2 5 = Some 22 /\ find N.compare (s_tab s2) 1 1 = Some 11.
Proof.
  eexists. split; [vm_compute; reflexivity|]. split.
  - match goal with |- context [op_effs ?a ?b ?c ?d] => let x := eval vm_compute in (op_effs a b c d) in change (op_effs a b c d) with x end.
    eexists [_;_;_;_], _, _. split; [reflexivity|]. split; reflexivity.
  - intros s2 H. vm_compute in H. injection H as <-. vm_compute. auto.
Qed.
