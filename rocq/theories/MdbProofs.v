(** Proofs for the database of several tables, from the refinement of one table. *)
Require Import List Sorted Arith NArith Lia Bool.
Require Import Verif.OrdLib Verif.DbModel Verif.DbSpec Verif.DbBlockProofs Verif.DbCrashProofs Verif.DbRefineProofs Verif.DbPropsProofs Verif.MdbModel Verif.MdbSpec.
Import ListNotations.
Open Scope N_scope.

Section P.
  Context {K V : Type}.
  Notation tab := (@tab K V).
  Notation dbase := (@dbase K V).
  Notation dspec := (@dspec K V).
  Notation spec := (@spec K V).
  Notation write := (@write K V).

  Fixpoint allp (P : nat -> tab -> Prop) (i : nat) (d : dbase) : Prop :=
    match d with [] => True | x :: d' => P i x /\ allp P (S i) d' end.
  Lemma allp_impl (P Q : nat -> tab -> Prop) d : forall i, (forall j x, In x d -> P j x -> Q j x) -> allp P i d -> allp Q i d.
  Proof. induction d as [|x d IH]; intros i H; simpl; auto. intros (A & B). split; [apply H; auto; left; auto|]. apply IH; auto. intros j y Hy. apply H. right; auto. Qed.
  Lemma allp_nth (P : nat -> tab -> Prop) d : forall i j x, allp P i d -> nth_error d j = Some x -> P (i + j)%nat x.
  Proof.
    induction d as [|y d IH]; intros i [|j] x H E; simpl in *; try discriminate.
    - injection E as <-. rewrite Nat.add_0_r. tauto.
    - replace (i + S j)%nat with (S i + j)%nat by lia. apply IH; tauto.
  Qed.
  Lemma each_ok (f : nat -> tab -> option tab) (P Q : nat -> tab -> Prop) d : forall i,
    (forall j x, P j x -> exists y, f j x = Some y /\ Q j y /\ fst y = fst x) -> allp P i d ->
    exists d', each f i d = Some d' /\ allp Q i d' /\ map fst d' = map fst d.
  Proof.
    induction d as [|x d IH]; intros i H A; simpl.
    - exists []. repeat split.
    - destruct A as (A & B). destruct (H _ _ A) as (y & E & Qy & Fy). destruct (IH (S i) H B) as (d' & E' & Q' & F').
      rewrite E, E'. exists (y :: d'). split; auto. split; [simpl; auto|]. simpl. congruence.
  Qed.

  (** one table with its own meaning *)
  Definition tr (x : tab) (a : spec) : Prop := TotalCmp (c_cmp (fst x)) /\ rel (c_cmp (fst x)) (snd x) a.
  Lemma tr_cur x a : tr x a -> version_of x = a_cur a.
  Proof. intros (_ & R). apply (rl_cur _ _ _ R). Qed.
  Lemma tr_event x a ev : tr x a -> event_ok ev -> exists y a', tab_event ev x = Some y /\ tr y a' /\ spec_event ev a a' /\ fst y = fst x.
  Proof.
    intros (T & R) Ho. destruct x as (c, s). simpl in *. destruct (rel_event (c_cmp c) T (c_lf c) s a ev R Ho) as (s' & a' & E & R' & S).
    unfold tab_event. simpl. rewrite E. exists (c, s'), a'. split; [reflexivity|]. split; [split; assumption|]. split; [assumption|reflexivity].
  Qed.
  Lemma tr_op x a o : tr x a -> op_ok o -> exists y, tab_event (EvOp o) x = Some y /\ tr y (spec_op o a) /\ fst y = fst x.
  Proof. intros T O. destruct (tr_event x a (EvOp o) T O) as (y & a' & E & T' & S & F). simpl in S. subst a'. eauto. Qed.

  (** all tables agree with the database specification *)
  Definition pr (D : dspec) (i : nat) (x : tab) : Prop := tr x (mk_spec (d_cur D) (writes_to i (d_writes D))).
  Definition dr (D : dspec) (d : dbase) : Prop := allp (pr D) 0 d.

  Lemma writes_app i (l1 l2 : list (nat * write)) : writes_to i (l1 ++ l2) = writes_to i l1 ++ writes_to i l2.
  Proof. unfold writes_to. rewrite filter_app, map_app. auto. Qed.
  Lemma writes_before i n (l : list (nat * write)) : writes_to i (before n l) = drop_from n (writes_to i l).
  Proof.
    induction l as [|(j, w) l IH]; simpl; auto. unfold writes_to, before, drop_from in *. simpl. destruct (wver w <? n) eqn:E1; simpl.
    - destruct (Nat.eqb j i); simpl; auto. rewrite E1. f_equal. auto.
    - destruct (Nat.eqb j i); simpl; auto. rewrite E1. auto.
  Qed.
  Lemma drop_drop v n (l : list write) : v <= n -> drop_from v (drop_from n l) = drop_from v l.
  Proof.
    intros H. unfold drop_from. induction l as [|w l IH]; simpl; auto. destruct (N.ltb_spec (wver w) n); simpl; destruct (N.ltb_spec (wver w) v); auto; try lia. f_equal; auto.
  Qed.

  Lemma insert_dr D d n k v : dr D d -> exists d', db_insert n k v d = Some d' /\ dr (spec_dop (DInsert n k v) D) d' /\ map fst d' = map fst d.
  Proof.
    intros R. apply (each_ok _ (pr D)); auto. intros j x T. unfold pr in *. simpl. rewrite writes_app. unfold writes_to at 2. simpl.
    rewrite (Nat.eqb_sym n j). destruct (Nat.eqb_spec j n).
    - destruct (tr_op _ _ (OInsert k v) T Logic.I) as (y & E & T' & F). exists y. auto.
    - exists x. simpl. rewrite app_nil_r. auto.
  Qed.

  Lemma commit_dr D n : udop (@DCommit K V n []) -> (n =? 4294967295) || (n <=? d_cur D) = false ->
    forall d i fls, allp (pr D) i d -> exists d', db_commit n fls d = Some d' /\ allp (pr (spec_dop (DCommit n fls) D)) i d' /\ map fst d' = map fst d.
  Proof.
    intros U Hn. induction d as [|x d IH]; intros i fls A; simpl.
    - exists []. auto.
    - destruct A as (T & A). set (fl := match fls with f :: _ => f | [] => false end).
      destruct (tr_op _ _ (OCommit n fl) T U) as (y & E & T' & F).
      destruct (IH (S i) (tl fls) A) as (d' & E' & A' & F'). rewrite E.
      destruct (t_commit (c_cmp (fst x)) (c_lf (fst x)) n fl (s_tab (snd x))) eqn:Ec.
      + rewrite E'. exists (y :: d'). split; auto. split; [|simpl; congruence]. split.
        * unfold pr. simpl in T' |- *. unfold a_commit in T'. simpl in T'. rewrite Hn in *. exact T'.
        * revert A'. simpl. rewrite Hn. auto.
      + exfalso. unfold tab_event in E. simpl in E. rewrite Ec in E. injection E as <-. destruct T as (_ & R). destruct T' as (_ & R').
        pose proof (rl_cur _ _ _ R) as C1. pose proof (rl_cur _ _ _ R') as C2. simpl in *. unfold a_commit in C2. simpl in C2. rewrite Hn in C2. simpl in C2.
        apply orb_false_iff in Hn as (_ & Hn). apply N.leb_gt in Hn. lia.
  Qed.
  Lemma commit_refused D n fls d : dr D d -> (n =? 4294967295) || (n <=? d_cur D) = true -> db_commit n fls d = Some d.
  Proof.
    intros R Hn. destruct d as [|x d]; simpl; auto. destruct R as ((_ & R) & _). pose proof (rl_cur _ _ _ R) as C. simpl in C.
    unfold t_commit. rewrite C. change u32max with 4294967295. rewrite Hn. auto.
  Qed.
  Lemma revert_dr D d n : dr D d -> exists d', db_revert n d = Some d' /\ dr (spec_dop (DRevert n) D) d' /\ map fst d' = map fst d.
  Proof.
    intros R. apply (each_ok _ (pr D)); auto. intros j x T. destruct (tr_op _ _ (ORevert n) T Logic.I) as (y & E & T' & F). exists y. split; auto. split; auto.
    unfold pr. simpl in *. unfold a_revert in T'. simpl in T'. destruct (d_cur D <? n); auto. simpl. rewrite writes_before. auto.
  Qed.

  (** a table after a process death: at some version up to [top], and holding what was written before that version *)
  Definition fp (D : dspec) (top : N) (i : nat) (x : tab) : Prop :=
    exists a, tr x a /\ a_cur a <= top /\ forall v, v <= a_cur a -> drop_from v (a_writes a) = drop_from v (writes_to i (d_writes D)).

  Lemma surv_fp D top i x (a a' : spec) : tr x a' -> a_survives a a' -> a_cur a <= top ->
    (forall v, v <= a_cur a -> drop_from v (a_writes a) = drop_from v (writes_to i (d_writes D))) -> fp D top i x.
  Proof.
    intros T (S1 & S2 & _) H G. exists a'. split; auto. split; [lia|]. intros v Hv. rewrite S1, drop_drop by lia. apply G. lia.
  Qed.
  Lemma fp_crash D top i x o m j opens : fp D top i x -> (match o with None => True | Some (ORevert n) => n <= version_of x | _ => False end) ->
    exists y, tab_event (EvCrash o m j opens) x = Some y /\ fp D top i y /\ fst y = fst x.
  Proof.
    intros (a & T & H1 & H2) Ho. destruct (tr_event x a (EvCrash o m j opens) T) as (y & a' & E & T' & S & F).
    { destruct o as [[]|]; simpl; auto; tauto. }
    exists y. split; auto. split; auto. rewrite (tr_cur _ _ T) in Ho. destruct o as [[]|]; try tauto; simpl in S.
    - destruct S as [S|S]; [eapply surv_fp; eauto|]. unfold a_revert in S. destruct (N.ltb_spec (a_cur a) n); [lia|].
      apply (surv_fp D _ i y _ a' T' S); simpl; [lia|]. intros v Hv. rewrite drop_drop by lia. apply H2. lia.
    - eapply surv_fp; eauto.
  Qed.
  Definition top_of (o : option (@dop K V)) (D : dspec) : N := N.max (d_cur D) (match o with Some o => d_cur (spec_dop o D) | None => 0 end).
  Lemma pr_crash D i x o m j opens : (match o with Some o => udop o | None => True end) -> pr D i x ->
    exists y, tab_event (EvCrash (part o i) m j opens) x = Some y /\ fp D (top_of o D) i y /\ fst y = fst x.
  Proof.
    intros U T. destruct (tr_event x _ (EvCrash (part o i) m j opens) T) as (y & a' & E & T' & S & F).
    { destruct o as [[]|]; simpl in *; auto. destruct (Nat.eqb i i0); simpl; auto. }
    exists y. split; auto. split; auto.
    assert (B : a_survives (mk_spec (d_cur D) (writes_to i (d_writes D))) a' -> fp D (top_of o D) i y).
    { intros B. apply (surv_fp D _ i y _ a' T' B); simpl; [unfold top_of; lia|auto]. }
    destruct o as [[n k v|n fls|n]|]; simpl in S.
    - destruct (Nat.eqb i n); [|auto]. destruct S as [S|S]; [auto|]. apply (surv_fp D _ i y _ a' T' S); simpl; [unfold top_of; simpl; lia|]. intros w Hw.
      unfold drop_from. rewrite filter_app. simpl. destruct (N.ltb_spec (wver ((k, d_cur D, v) : write)) w) as [L|L]; [unfold wver in L; simpl in L; lia|]. apply app_nil_r.
    - destruct S as [S|S]; [auto|]. unfold a_commit in S. simpl in S. destruct ((n =? 4294967295) || (n <=? d_cur D)) eqn:Hn; [auto|].
      apply (surv_fp D _ i y _ a' T' S); simpl; [unfold top_of; simpl; rewrite Hn; simpl; lia|auto].
    - destruct S as [S|S]; [auto|]. unfold a_revert in S. simpl in S. destruct (N.ltb_spec (d_cur D) n); [auto|].
      apply (surv_fp D _ i y _ a' T' S); simpl; [unfold top_of; simpl; lia|]. intros v Hv. apply drop_drop. auto.
    - auto.
  Qed.

  Lemma min_fold (d : dbase) : forall m, fold_left (fun m x => N.min (version_of x) m) d m <= m /\
    forall x, In x d -> fold_left (fun m x => N.min (version_of x) m) d m <= version_of x.
  Proof.
    induction d as [|y d IH]; intros m; simpl; [split; [lia|tauto]|]. destruct (IH (N.min (version_of y) m)) as (A & B). split; [lia|].
    intros x [->|H]; [lia|auto].
  Qed.
  Lemma min_le (d : dbase) x : In x d -> min_version d <= version_of x.
  Proof. destruct d as [|y d]; [intros []|]. intros H. exact (proj2 (min_fold (y :: d) u32max) x H). Qed.

  Lemma allp_in (P : nat -> tab -> Prop) d : forall i, allp P i d -> allp (fun j x => P j x /\ In x d) i d.
  Proof.
    induction d as [|x d IH]; intros i; simpl; auto. intros (A & B). split; auto. apply IH in B. revert B. apply allp_impl. intros j y _ (C & E). auto.
  Qed.

  Lemma start_dr D top rs : forall d, allp (fp D top) 0 d -> 0 < N.of_nat (length d) ->
    exists d' v, start rs d = Some d' /\ v <= top /\ dr (mk_dspec v (before v (d_writes D))) d' /\ map fst d' = map fst d.
  Proof.
    induction rs as [|ds rs IH]; intros d A L; simpl.
    - set (v := min_version d).
      destruct (each_ok (fun _ x => tab_event (EvOp (ORevert v)) x) (fun j x => fp D top j x /\ In x d) (pr (mk_dspec v (before v (d_writes D)))) d 0) as (d' & E & B & F).
      { intros j x ((a & T & H1 & H2) & Hx). destruct (tr_op _ _ (ORevert v) T Logic.I) as (y & E & T' & F). exists y. split; auto. split; auto.
        unfold pr. simpl. rewrite writes_before. pose proof (min_le d x Hx) as M. rewrite (tr_cur _ _ T) in M. fold v in M. unfold spec_op, a_revert in T'.
        destruct (N.ltb_spec (a_cur a) v); [lia|]. rewrite (H2 v M) in T'. exact T'. }
      { apply allp_in; auto. }
      exists d', v. split; [exact E|]. split; [|split; auto].
      destruct d as [|x d]; [simpl in L; lia|]. destruct A as ((a & T & H1 & _) & _). pose proof (min_le (x :: d) x (or_introl eq_refl)) as M. rewrite (tr_cur _ _ T) in M. fold v in M. lia.
    - destruct (each_ok (fun i x => let '(m, j, opens) := nth i ds (0%nat, 0%nat, []) in tab_event (EvCrash (Some (ORevert (min_version d))) m j opens) x)
                  (fun j x => fp D top j x /\ In x d) (fp D top) d 0) as (d1 & E & B & F).
      { intros j x (Fx & Hx). destruct (nth j ds _) as ((m, n), opens). apply fp_crash; auto. apply min_le; auto. }
      { apply allp_in; auto. }
      unfold die. rewrite E. destruct (IH d1 B) as (d' & v & E' & R1 & R2 & R3).
      { destruct d1; [destruct d; [simpl in L; lia|discriminate F]|simpl; lia]. }
      exists d', v. split; auto. split; auto. split; auto. congruence.
  Qed.

  Lemma step_dr D d ev : dr D d -> d <> [] -> udevent ev -> exists d' D', db_step d ev = Some d' /\ spec_devent ev D D' /\ dr D' d' /\ map fst d' = map fst d.
  Proof.
    intros R Hd U. destruct ev as [o|o ds rs]; simpl.
    - destruct o as [n k v|n fls|n].
      + destruct (insert_dr D d n k v R) as (d' & E & R' & F). eauto 6.
      + destruct ((n =? 4294967295) || (n <=? d_cur D)) eqn:Hn.
        * exists d, D. rewrite (commit_refused D n fls d R Hn). simpl. rewrite Hn. auto.
        * destruct (commit_dr D n U Hn d 0%nat fls R) as (d' & E & R' & F). eauto 6.
      + destruct (revert_dr D d n R) as (d' & E & R' & F). eauto 6.
    - destruct (each_ok (fun i x => let '(m, j, opens) := nth i ds (0%nat, 0%nat, []) in tab_event (EvCrash (part o i) m j opens) x) (pr D) (fp D (top_of o D)) d 0) as (d1 & E & B & F); auto.
      { intros j x T. destruct (nth j ds _) as ((m, n), opens). apply pr_crash; auto. }
      unfold die. rewrite E. destruct (start_dr D (top_of o D) rs d1 B) as (d' & v & E' & R1 & R2 & R3).
      { destruct d1; [destruct d; [congruence|discriminate F]|simpl; lia]. }
      exists d', (mk_dspec v (before v (d_writes D))). split; auto. split; [split; simpl; auto|]. split; auto. congruence.
  Qed.

  Lemma steps_dr evs : forall D d, dr D d -> d <> [] -> Forall udevent evs ->
    exists d' D', db_steps d evs = Some d' /\ spec_drun evs D D' /\ dr D' d' /\ map fst d' = map fst d.
  Proof.
    induction evs as [|ev evs IH]; intros D d R Hd U; simpl.
    - exists d, D. auto.
    - inversion U as [|? ? U1 U2]; subst. destruct (step_dr D d ev R Hd U1) as (d1 & D1 & E & S & R1 & F). rewrite E.
      destruct (IH D1 d1 R1) as (d' & D' & E' & S' & R' & F'); auto.
      { intros ->. destruct d; [congruence|discriminate F]. }
      exists d', D'. split; auto. split; eauto. split; auto. congruence.
  Qed.
  Lemma open_dr (cs : list (@cfg K)) : Forall (fun c => TotalCmp (c_cmp c)) cs -> exists d, db_open cs = Some d /\ (forall i, allp (pr d_init) i d) /\ map fst d = cs.
  Proof.
    induction 1 as [|c cs T _ IH]; simpl.
    - exists []. repeat split.
    - destruct (@rel_init K V (c_cmp c) T (c_lf c)) as (s & E & R). destruct IH as (d & E' & A & F). rewrite E, E'. exists ((c, s) :: d).
      split; auto. split; [|simpl; congruence]. intros i. split; [split; auto|auto].
  Qed.
  Lemma run_dr (cs : list (@cfg K)) evs : Forall (fun c => TotalCmp (c_cmp c)) cs -> cs <> [] -> Forall udevent evs ->
    exists d D, db_run cs evs = Some d /\ spec_drun evs d_init D /\ dr D d /\ map fst d = cs.
  Proof.
    intros T Hc U. destruct (open_dr cs T) as (d0 & E0 & A0 & F0). unfold db_run. rewrite E0.
    assert (Hd : d0 <> []) by (intros ->; simpl in F0; congruence).
    destruct (revert_dr d_init d0 (min_version d0) (A0 0%nat)) as (d1 & E1 & A1 & F1). unfold recover. rewrite E1.
    assert (X : spec_dop (DRevert (min_version d0)) d_init = @d_init K V).
    { simpl. destruct (N.ltb_spec 0 (min_version d0)) as [L|L]; auto. destruct d0 as [|x d0]; [congruence|]. unfold d_init. f_equal. lia. }
    rewrite X in A1. destruct (steps_dr evs d_init d1 A1) as (d & D & E & S & R & F); auto.
    { intros ->. destruct d0; [congruence|discriminate F1]. }
    exists d, D. split; auto. split; auto. split; auto. congruence.
  Qed.
End P.
