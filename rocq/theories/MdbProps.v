(** C68 and C69: a database of several tables and process deaths. Specification: MdbSpec.v. *)
Require Import List Arith NArith Lia Bool.
Require Import Verif.OrdLib Verif.DbModel Verif.DbSpec Verif.DbRefineProofs Verif.DbPropsProofs Verif.MdbModel Verif.MdbSpec Verif.MdbProofs Verif.MdbVerProofs.
Import ListNotations.
Open Scope N_scope.

(** C68: for any set of tables and any history of inserts, commits, reverts and process deaths (at any point of a call, of the opening and of the
    recovery), the database can be started again; all tables are at one version, and every lookup in every table answers
    from the writes that the specification lets survive: after a process death exactly those made before that one version. *)
Theorem C68_one_version : forall (K V : Type) (cs : list (@cfg K)) (evs : list (@devent K V)),
  Forall (fun c => TotalCmp (c_cmp c)) cs -> cs <> [] -> Forall udevent evs ->
  exists db d, db_run cs evs = Some db /\ spec_drun evs d_init d /\ length db = length cs /\
    forall i c s, nth_error db i = Some (c, s) ->
      nth_error cs i = Some c /\ t_cur (s_tab s) = d_cur d /\
      forall k mv, find (c_cmp c) (s_tab s) k mv = a_find (key_eqb (c_cmp c)) (mk_spec (d_cur d) (writes_to i (d_writes d))) k mv.
Proof.
  intros K V cs evs T Hc U. destruct (run_dr cs evs T Hc U) as (db & D & E & S & R & F). exists db, D. split; auto. split; auto.
  split. { rewrite <- F. symmetry. apply map_length. }
  intros i c s H. split. { rewrite <- F. apply (map_nth_error fst) in H. exact H. }
  pose proof (allp_nth _ _ 0%nat i (c, s) R H) as (TK & R'). simpl in *. split; [apply (rl_cur _ _ _ R')|].
  intros k mv. exact (rel_find _ TK _ _ _ _ R').
Qed.
Print Assumptions C68_one_version.

(** The same in terms of lookups only: there is one version [v] such that every table is at [v] after the restart and every lookup answers as
    it did before the process died for versions below [v]. *)
Theorem C68_snapshot : forall (K V : Type) (cs : list (@cfg K)) (evs : list (@devent K V)) db ds rs,
  Forall (fun c => TotalCmp (c_cmp c)) cs -> cs <> [] -> Forall udevent evs -> db_run cs evs = Some db ->
  exists db' v, db_run cs (evs ++ [EDie None ds rs]) = Some db' /\ v <= db_version db /\
    forall i c s c' s', nth_error db i = Some (c, s) -> nth_error db' i = Some (c', s') ->
      t_cur (s_tab s') = v /\
      (forall k mv, mv < v -> find (c_cmp c) (s_tab s') k mv = find (c_cmp c) (s_tab s) k mv) /\
      (forall k mv, 0 < v -> v <= mv -> find (c_cmp c) (s_tab s') k mv = find (c_cmp c) (s_tab s) k (v - 1)).
Proof.
  intros K V cs evs db ds rs T Hc U E. destruct (run_dr cs evs T Hc U) as (db0 & D & E0 & _ & R & F). rewrite E in E0. injection E0 as <-.
  assert (Hd : db <> []). { intros ->. simpl in F. congruence. }
  destruct (step_dr D db (EDie None ds rs) R Hd Logic.I) as (db' & D' & E' & (S1 & S2) & R' & F').
  exists db', (d_cur D'). split.
  { unfold db_run in *. destruct (db_open cs); [|discriminate]. destruct (recover _); [|discriminate]. rewrite db_steps_app, E. cbn [db_steps]. rewrite E'. auto. }
  split. { destruct db as [|x db]; [congruence|]. destruct R as ((_ & R) & _). simpl. unfold version_of. rewrite (rl_cur _ _ _ R). simpl. simpl in S1. lia. }
  intros i c s c' s' H H'. pose proof (allp_nth _ _ 0%nat i _ R H) as (TK & RR). pose proof (allp_nth _ _ 0%nat i _ R' H') as (TK' & RR'). simpl in *.
  assert (c' = c) as ->. { apply (map_nth_error fst) in H, H'. rewrite F' in H'. simpl in *. congruence. }
  split; [apply (rl_cur _ _ _ RR')|].
  assert (G : forall k mv, find (c_cmp c) (s_tab s') k mv = (if mv <? d_cur D' then find (c_cmp c) (s_tab s) k mv else if d_cur D' =? 0 then None else find (c_cmp c) (s_tab s) k (d_cur D' - 1))).
  { intros k mv. rewrite (rel_find _ TK _ _ _ _ RR'), !(rel_find _ TK _ _ _ _ RR), S2, writes_before.
    pose proof (a_find_drop (c_cmp c) (writes_to i (d_writes D)) (d_cur D) (d_cur D') k mv (rl_sorted _ _ _ RR)) as G.
    unfold a_find in *. simpl in *. exact G. }
  split; intros k mv; rewrite G; intros.
  - apply N.ltb_lt in H0. rewrite H0. auto.
  - apply N.ltb_ge in H1. rewrite H1. destruct (N.eqb_spec (d_cur D') 0); [lia|auto].
Qed.
Print Assumptions C68_snapshot.

(** two tables; the process dies in a commit in which the first table is done with flushing and the second has not written anything, then again while recovering *)
Definition mdb_cs : list (@cfg N) := [mk_cfg N.compare 4; mk_cfg N.compare 4].
Definition mdb_evs : list (@devent N N) :=
  [ECall (DInsert 0 7 70); ECall (DInsert 1 7 71); ECall (DCommit 1 [true; false]); ECall (DInsert 0 8 80); ECall (DInsert 1 8 81); ECall (DCommit 2 []);
   ECall (DInsert 0 7 72); ECall (DInsert 1 7 73)].
Definition mdb_die : @devent N N := EDie (Some (DCommit 3 [true; false])) [(9%nat, 0%nat, []); (0%nat, 5%nat, [(1%nat, 1%nat)])] [[(1%nat, 1%nat, []); (2%nat, 0%nat, [])]].
Lemma mdb_total : Forall (fun c => TotalCmp (c_cmp c)) mdb_cs.
Proof. repeat apply Forall_cons; try exact Ncompare_total. constructor. Qed.
Example C68_case : Forall (fun c => TotalCmp (c_cmp c)) mdb_cs /\ mdb_cs <> [] /\ Forall udevent (mdb_evs ++ [mdb_die]) /\
  exists d0 s1 s2 d1, db_run mdb_cs mdb_evs = Some d0 /\ die (part (Some (DCommit 3 [true; false]))) [(9%nat, 0%nat, []); (0%nat, 5%nat, [(1%nat, 1%nat)])] d0 = Some d1 /\
  map version_of d1 = [3; 2] /\
  db_run mdb_cs (mdb_evs ++ [mdb_die]) = Some [s1; s2] /\ version_of s1 = 2 /\ version_of s2 = 2 /\
  find N.compare (s_tab (snd s1)) 7 9 = Some 70 /\ find N.compare (s_tab (snd s2)) 7 9 = Some 71 /\ find N.compare (s_tab (snd s2)) 8 9 = Some 81.
Proof.
  split; [exact mdb_total|]. split; [discriminate|]. split; [repeat constructor; simpl; lia|].
  do 4 eexists. split; [vm_compute; reflexivity|]. split; [vm_compute; reflexivity|]. split; [vm_compute; reflexivity|]. split; [vm_compute; reflexivity|].
  repeat (split; [vm_compute; reflexivity|]). vm_compute; reflexivity.
Qed.

(** C69: a restart loses nothing that was committed: the version after it is the committed one.
    False: the table that has nothing to write is flushed by force: its log, the only place that knows its version, is truncated, and the record
    with the version stays in the buffer of the process. The whole database falls back to version 0. *)
Theorem C69_refuted : exists (cs : list (@cfg N)) (evs : list (@devent N N)) db db',
  Forall (fun c => TotalCmp (c_cmp c)) cs /\ cs <> [] /\ Forall udevent evs /\
  db_run cs evs = Some db /\ db_version db = 1000 /\ (exists x, In x db /\ find N.compare (s_tab (snd x)) 7 1000 = Some 70) /\
  db_run cs (evs ++ [EDie None [] []]) = Some db' /\ db_version db' = 0 /\ (forall x k mv, In x db' -> find N.compare (s_tab (snd x)) k mv = None).
Proof.
  exists mdb_cs, [ECall (DInsert 0 7 70); ECall (DCommit 999 []); ECall (DInsert 0 8 80); ECall (DCommit 1000 [false; true])].
  do 2 eexists. split; [exact mdb_total|]. split; [discriminate|]. split; [repeat constructor; simpl; lia|].
  split; [vm_compute; reflexivity|]. split; [reflexivity|]. split. { eexists. split; [left; reflexivity|]. vm_compute. reflexivity. }
  split; [vm_compute; reflexivity|]. split; [reflexivity|].
  intros x k mv [<-|[<-|[]]]; reflexivity.
Qed.
Print Assumptions C69_refuted.

(** C69, the part that holds: if every table that the last commit flushed had been written to at the version before, then after any number of further
    inserts and process deaths (also while starting) all tables are at the committed version. *)
Theorem C69_committed_version_partial : forall (K V : Type) (cs : list (@cfg K)) (evs : list (@devent K V)) n fls ins ds rs,
  Forall (fun c => TotalCmp (c_cmp c)) cs -> cs <> [] -> Forall udevent evs ->
  (forall db, db_run cs evs = Some db -> db_version db < n) -> n < 4294967295 ->
  (forall d, spec_drun evs d_init d -> forall i, (i < length cs)%nat -> nth i fls false = true -> exists w, In w (writes_to i (d_writes d)) /\ wver w + 1 = n) ->
  exists db', db_run cs (evs ++ ECall (DCommit n fls) :: map (fun p => ECall (DInsert (fst p) (fst (snd p)) (snd (snd p)))) ins ++ [EDie None ds rs]) = Some db' /\
    length db' = length cs /\ forall x, In x db' -> version_of x = n.
Proof.
  intros K V cs evs n fls ins ds rs T Hc U Hv Hn W. destruct (run_dr cs evs T Hc U) as (db & D & E & SD & R & F).
  assert (Hd : db <> []). { intros ->. simpl in F. congruence. }
  specialize (Hv db E). assert (HD : d_cur D < n). { destruct db as [|x db]; [congruence|]. destruct R as ((_ & R) & _). simpl in Hv. unfold version_of in Hv. rewrite (rl_cur _ _ _ R) in Hv. exact Hv. }
  assert (Len : length db = length cs). { rewrite <- F. symmetry. apply map_length. }
  destruct (commit_firm D n Hn HD db 0%nat fls R) as (d1 & E1 & A1 & F1). { intros j Hj Hf. apply (W D SD j); auto. unfold tab in *. lia. }
  destruct (inserts_firm n ins d1 A1) as (d2 & E2 & A2 & F2). destruct (die_firm n ds d2 A2) as (d3 & E3 & A3 & F3).
  assert (H3 : d3 <> []). { intros ->. rewrite F2 in F3. rewrite F1 in F3. destruct db; [congruence|discriminate]. }
  destruct (start_firm n rs ltac:(unfold u32max; lia) d3 H3 A3) as (d4 & E4 & A4 & F4).
  exists d4. split.
  { unfold db_run in *. destruct (db_open cs); [|discriminate]. destruct (recover _); [|discriminate]. rewrite db_steps_app, E. cbn [db_steps db_step]. rewrite E1, db_steps_app, E2.
    cbn [db_steps db_step]. rewrite E3, E4. auto. }
  split.
  { etransitivity; [symmetry; apply (map_length fst d4)|]. rewrite F4, F3, F2, F1, F. auto. }
  intros x Hx. apply In_nth_error in Hx as (i & Hx). exact (allp_nth _ _ 0%nat i x A4 Hx).
Qed.
Print Assumptions C69_committed_version_partial.

(** the first table is flushed by the commit and was written to before it *)
Example C69_case : (forall db, db_run mdb_cs mdb_evs = Some db -> db_version db < 3) /\
  (forall d, spec_drun mdb_evs d_init d -> forall i, (i < length mdb_cs)%nat -> nth i [true; false] false = true -> exists w, In w (writes_to i (d_writes d)) /\ wver w + 1 = 3) /\
  exists db', db_run mdb_cs (mdb_evs ++ ECall (DCommit 3 [true; false]) :: map (fun p => ECall (DInsert (fst p) (fst (snd p)) (snd (snd p)))) [(1%nat, (5, 6))] ++ [EDie None [(0%nat, 1%nat, [])] []]) = Some db' /\
   map version_of db' = [3; 3].
Proof.
  split. { intros db E. vm_compute in E. injection E as <-. reflexivity. }
  split. { intros d (d1 & -> & d2 & -> & d3 & -> & d4 & -> & d5 & -> & d6 & -> & d7 & -> & d8 & -> & ->) i Hi Hf.
    destruct i as [|[|i]]; [|discriminate|simpl in Hi; lia]. exists ((7, 2), 72). split; [vm_compute; auto|reflexivity]. }
  eexists. split; [vm_compute; reflexivity|]. vm_compute. reflexivity.
Qed.
