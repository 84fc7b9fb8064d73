(** C07, C08: iterating over a table. *)
Require Import List Sorted NArith Lia Bool Arith.
Require Import Verif.OrdLib Verif.DbModel Verif.DbSpec Verif.DbBlockProofs Verif.DbCrashProofs Verif.DbRefineProofs Verif.DbPropsProofs
  Verif.DbIterModel Verif.DbIterSpec Verif.DbIterProofs Verif.DbIterMain.
Import ListNotations.
Open Scope N_scope.

Lemma run_lookup {K V : Type} (kcmp : K -> K -> comparison) : TotalCmp kcmp ->
  forall lf (evs : list (@event K V)) s, Forall uevent evs -> run kcmp lf evs = Some s -> lookup_ok kcmp (s_tab s).
Proof.
  intros TK lf evs s F E. destruct (run_rel kcmp TK lf evs F) as (s' & a & E' & R & _). rewrite E in E'. injection E' as <-.
  exact (wi_look _ _ _ (i_w _ _ _ (rl_inv _ _ _ R))).
Qed.

(** C07: whatever the history of the table (writes, commits with or without flush and merge, reverts, process deaths and
    reopenings), there is one list [l] of all live keys, ascending, with the values find() returns, and: reading from
    seek_begin() with next() gives [l]; from seek_last() with prev() gives [l] backwards; from seek(k) with next() gives
    the part of [l] from [k] on; from seek_prev(k) with prev() gives the part of [l] below [k], backwards. *)
Theorem C07_iteration : forall (K V : Type) (kcmp : K -> K -> comparison), TotalCmp kcmp ->
  forall lf (evs : list (@event K V)) s, Forall uevent evs -> run kcmp lf evs = Some s ->
  exists l, lists kcmp (fun k => find kcmp (s_tab s) k u32max) l /\
    (exists i, seek_begin kcmp (s_tab s) = Some i /\ yields current (it_next kcmp (s_tab s)) i l) /\
    (exists i, seek_last kcmp (s_tab s) = Some i /\ yields current (it_prev kcmp (s_tab s)) i (rev l)) /\
    (forall k, exists i, seek kcmp (s_tab s) k = Some i /\
       yields current (it_next kcmp (s_tab s)) i (filter (fun x => negb (below kcmp k x)) l)) /\
    (forall k, exists i, seek_prev kcmp (s_tab s) k = Some i /\
       yields current (it_prev kcmp (s_tab s)) i (rev (filter (below kcmp k) l))).
Proof.
  intros K V kcmp TK lf evs s F E. pose proof (run_lookup kcmp TK lf evs s F E) as L.
  exists (listing kcmp (s_tab s)). pose proof (listing_ok kcmp TK _ L) as Hl. split; auto. apply C07_table; auto.
Qed.
Print Assumptions C07_iteration.

(** C08, as far as it holds: from every position a user can reach, the current element is a live key with its newest
    value, prev() always moves to the next lower live key, and next() to the next higher one, except that after moving
    backward next() needs the current key to be held by every block (and the memory table) that holds a higher key.
    The same restriction applies to the earlier moves ([reached]). *)
Theorem C08_neighbour_partial : forall (K V : Type) (kcmp : K -> K -> comparison), TotalCmp kcmp ->
  forall lf (evs : list (@event K V)) s i k v, Forall uevent evs -> run kcmp lf evs = Some s ->
  reached kcmp (s_tab s) i -> current i = Some (k, v) ->
  find kcmp (s_tab s) k u32max = Some v /\
  (exists i', it_prev kcmp (s_tab s) i = Some i' /\ next_below kcmp (fun k => find kcmp (s_tab s) k u32max) k (current i')) /\
  ((it_dir i = Some Bwd -> held_throughout kcmp (s_tab s) k) ->
   exists i', it_next kcmp (s_tab s) i = Some i' /\ next_above kcmp (fun k => find kcmp (s_tab s) k u32max) k (current i')).
Proof.
  intros K V kcmp TK lf evs s i k v F E R C. pose proof (run_lookup kcmp TK lf evs s F E) as L.
  pose proof (reached_good kcmp TK _ _ L R) as G.
  destruct (good_move kcmp TK _ _ _ _ Bwd L G C) as (H1 & i1 & E1 & _ & N1); [discriminate|].
  split; auto. split; [exists i1; auto|]. intros HT.
  destruct (good_move kcmp TK _ _ _ _ Fwd L G C) as (_ & i2 & E2 & _ & N2); [auto|]. exists i2; auto.
Qed.
Print Assumptions C08_neighbour_partial.

(** Tables whose records are all in one place (memory only, or one block and an empty memory table) have no such
    restriction: there the property holds in full. *)
Theorem C08_one_source : forall (K V : Type) (kcmp : K -> K -> comparison), TotalCmp kcmp ->
  forall lf (evs : list (@event K V)) s, Forall uevent evs -> run kcmp lf evs = Some s ->
  t_blocks (s_tab s) = [] \/ (exists b, t_blocks (s_tab s) = [b] /\ t_mem (s_tab s) = []) ->
  forall k, find kcmp (s_tab s) k u32max <> None -> held_throughout kcmp (s_tab s) k.
Proof.
  intros K V kcmp TK lf evs s F E HS k Hk. pose proof (run_lookup kcmp TK lf evs s F E) as L.
  pose proof (find_newest TK k u32max L) as N. destruct (find kcmp (s_tab s) k u32max) as [v|]; [|congruence].
  destruct N as (n & I & _). unfold content in I. unfold held_throughout. destruct HS as [HS|(b & HS & HM)].
  - rewrite HS in *. simpl in I. split; [intros ? ? []|]. intros e He _. exists ((k, n), v). auto.
  - rewrite HS, HM in *. simpl in I. rewrite !app_nil_r in I. split; [|intros ? []].
    intros b' e [<-|[]] He _. exists ((k, n), v). auto.
Qed.
Print Assumptions C08_one_source.

(** C08 is false in general: keys 1 and 3 are in a block, key 2 only in memory. Going backward to 2 and then forward
    ends the iteration, although 3 is there; and with a further key 4 it jumps over 3. *)
Definition ex_it : list (@event N N) :=
  [EvOp (OInsert 1 10); EvOp (OInsert 3 30); EvOp (OCommit 5 true); EvOp (OInsert 2 20)].
Definition ex_it4 : list (@event N N) :=
  [EvOp (OInsert 1 10); EvOp (OInsert 3 30); EvOp (OInsert 4 40); EvOp (OCommit 5 true); EvOp (OInsert 2 20)].
Theorem C08_refuted : exists (evs : list (@event N N)) s i i', Forall uevent evs /\ run N.compare 4 evs = Some s /\
  seek_prev N.compare (s_tab s) 3 = Some i /\ current i = Some (2, 20) /\ it_next N.compare (s_tab s) i = Some i' /\
  current i' = None /\ find N.compare (s_tab s) 3 u32max = Some 30 /\
  ~ next_above N.compare (fun k => find N.compare (s_tab s) k u32max) 2 (current i').
Proof.
  exists ex_it. eexists. eexists. eexists. split; [repeat constructor; simpl; unfold u32max; lia|].
  split; [vm_compute; reflexivity|]. split; [vm_compute; reflexivity|]. split; [reflexivity|].
  split; [vm_compute; reflexivity|]. split; [reflexivity|]. split; [vm_compute; reflexivity|].
  intros H. apply (H 3); vm_compute; [discriminate|reflexivity].
Qed.
Print Assumptions C08_refuted.
Theorem C08_skips_refuted : exists (evs : list (@event N N)) s i i', Forall uevent evs /\ run N.compare 4 evs = Some s /\
  seek_prev N.compare (s_tab s) 3 = Some i /\ current i = Some (2, 20) /\ it_next N.compare (s_tab s) i = Some i' /\
  current i' = Some (4, 40) /\ find N.compare (s_tab s) 3 u32max = Some 30.
Proof.
  exists ex_it4. eexists. eexists. eexists. split; [repeat constructor; simpl; unfold u32max; lia|].
  split; [vm_compute; reflexivity|]. split; [vm_compute; reflexivity|]. split; [reflexivity|].
  split; [vm_compute; reflexivity|]. split; reflexivity.
Qed.
Print Assumptions C08_skips_refuted.

(** a key in two blocks and in memory, others in one place only *)
Definition ex_it3 : list (@event N N) :=
  [EvOp (OInsert 1 10); EvOp (OInsert 3 30); EvOp (OCommit 5 true); EvOp (OInsert 3 31); EvOp (OInsert 2 20);
   EvOp (OCommit 6 true); EvOp (OInsert 3 32); EvOp (OInsert 7 70)].
Fixpoint read_all {I X : Type} (cur : I -> option X) (step : I -> option I) (n : nat) (i : I) : list X :=
  match n, cur i with
  | S n', Some x => x :: match step i with Some i' => read_all cur step n' i' | None => [] end
  | _, _ => []
  end.
Example C07_case : Forall uevent ex_it3 /\ exists s i, run N.compare 4 ex_it3 = Some s /\
  length (t_blocks (s_tab s)) = 2%nat /\ seek_begin N.compare (s_tab s) = Some i /\
  read_all current (it_next N.compare (s_tab s)) 9 i = [(1, 10); (2, 20); (3, 32); (7, 70)].
Proof.
  split; [repeat constructor; simpl; unfold u32max; lia|]. eexists. eexists. split; [vm_compute; reflexivity|].
  split; [reflexivity|]. split; [vm_compute; reflexivity|]. vm_compute. reflexivity.
Qed.
(** the hypotheses of C08: an iterator that went forward over two keys and back *)
Example C08_case : exists s i i1 i2, run N.compare 4 ex_it3 = Some s /\ seek_begin N.compare (s_tab s) = Some i /\
  it_next N.compare (s_tab s) i = Some i1 /\ current i1 = Some (2, 20) /\ it_prev N.compare (s_tab s) i1 = Some i2 /\
  reached N.compare (s_tab s) i2 /\ current i2 = Some (1, 10).
Proof.
  eexists. eexists. eexists. eexists. split; [vm_compute; reflexivity|]. split; [vm_compute; reflexivity|].
  split; [vm_compute; reflexivity|]. split; [reflexivity|]. split; [vm_compute; reflexivity|]. split; [|reflexivity].
  eapply r_prev; [eapply r_next; [eapply r_begin; vm_compute; reflexivity|vm_compute; reflexivity|]|vm_compute; reflexivity].
  discriminate.
Qed.
(** and one that turns from backward to forward at a key held by every place with higher keys *)
Definition ex_it5 : list (@event N N) :=
  [EvOp (OInsert 1 10); EvOp (OInsert 3 30); EvOp (OCommit 5 true); EvOp (OInsert 1 11); EvOp (OInsert 2 20)].
Example C08_turn_case : exists s i i1, run N.compare 4 ex_it5 = Some s /\ seek_prev N.compare (s_tab s) 2 = Some i /\
  current i = Some (1, 11) /\ it_dir i = Some Bwd /\ held_throughout N.compare (s_tab s) 1 /\
  it_next N.compare (s_tab s) i = Some i1 /\ current i1 = Some (2, 20).
Proof.
  eexists. eexists. eexists. split; [vm_compute; reflexivity|]. split; [vm_compute; reflexivity|].
  split; [reflexivity|]. split; [reflexivity|]. split.
  - split.
    + intros b e [<-|[]] He _. exists ((1, 0), 10). split; [left; reflexivity|reflexivity].
    + intros e He _. exists ((1, 5), 11). split; [left; reflexivity|reflexivity].
  - split; [vm_compute; reflexivity|reflexivity].
Qed.
