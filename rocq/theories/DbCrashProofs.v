(** Files, log replay, crashes: the table refines the list-of-writes specification. *)
Require Import List Sorted Permutation NArith Lia Bool Arith.
Require Import Verif.OrdLib Verif.DbModel Verif.DbSpec Verif.DbBlockProofs Verif.DbOpsProofs.
Import ListNotations.
Open Scope N_scope.

Section P.
  Context {K V : Type} (kcmp : K -> K -> comparison).
  Hypothesis TK : TotalCmp kcmp.
  Notation entry := (@entry K V).
  Notation block := (@block K V).
  Notation table := (@table K V).
  Notation logrec := (@logrec K V).
  Notation world := (@world K V).
  Notation eff := (@eff K V).
  Notation vcmp := (vcmp kcmp).
  Notation keqb := (keqb kcmp).
  Notation TV := (TV TK).
  Notation esorted := (esorted kcmp).
  Notation blocks_ok := (blocks_ok kcmp).
  Notation lookup_ok := (lookup_ok kcmp).

  (** ** Last write of an exact (key, version) *)
  Definition last_at (ws : list entry) (k : K) (n : N) : option V :=
    fold_left (fun acc w => if keqb (ekey w) k && (ever w =? n) then Some (evl w) else acc) ws None.

  Lemma last_at_snoc l k n v k' n' : last_at (l ++ [((k, n), v)]) k' n' =
    if keqb k k' && (n =? n') then Some v else last_at l k' n'.
  Proof. unfold last_at. rewrite fold_left_app. simpl. unfold ekey, ever, evl; simpl. auto. Qed.

  Lemma last_at_In l k n v : last_at l k n = Some v -> In ((k, n), v) l.
  Proof.
    induction l as [|((k0, n0), v0) l IH] using rev_ind; [discriminate|].
    rewrite last_at_snoc. destruct (keqb k0 k && (n0 =? n)) eqn:E.
    - apply andb_true_iff in E. destruct E as (E1 & E2). apply (keqb_eq TK) in E1. apply N.eqb_eq in E2. subst.
      intros [= ->]. apply in_or_app. right. left. auto.
    - intros H. apply in_or_app. auto.
  Qed.
  Lemma last_at_None l k n : last_at l k n = None -> forall v, ~ In ((k, n), v) l.
  Proof.
    induction l as [|((k0, n0), v0) l IH] using rev_ind; [intros _ v []|].
    rewrite last_at_snoc. destruct (keqb k0 k && (n0 =? n)) eqn:E; [discriminate|].
    intros H v Hin. apply in_app_or in Hin. destruct Hin as [Hin|[[= -> -> ->]|[]]]; [eapply IH; eauto|].
    rewrite (keqb_refl TK), N.eqb_refl in E. discriminate.
  Qed.
  Lemma last_at_exists l k n v : In ((k, n), v) l -> exists v', last_at l k n = Some v'.
  Proof.
    intros H. destruct (last_at l k n) as [v'|] eqn:E; eauto. exfalso. eapply last_at_None; eauto.
  Qed.
  Lemma last_at_filter (f : N -> bool) l k n :
    last_at (filter (fun e => f (ever e)) l) k n = if f n then last_at l k n else None.
  Proof.
    induction l as [|((k0, n0), v0) l IH] using rev_ind; [destruct (f n); auto|].
    rewrite filter_app. simpl. unfold ever at 2; simpl.
    destruct (f n0) eqn:E.
    - rewrite !last_at_snoc, IH. destruct (keqb k0 k); simpl; auto.
      destruct (N.eqb_spec n0 n); auto. subst. rewrite E. auto.
    - rewrite app_nil_r, IH, last_at_snoc. destruct (f n) eqn:E2; auto.
      destruct (N.eqb_spec n0 n); [congruence|]. rewrite andb_false_r. auto.
  Qed.
  Lemma last_at_app_other l l2 k n : (forall e, In e l2 -> ever e <> n) -> last_at (l ++ l2) k n = last_at l k n.
  Proof.
    induction l2 as [|((k0, n0), v0) l2 IH] using rev_ind; intros H; [rewrite app_nil_r; auto|].
    rewrite app_assoc, last_at_snoc. rewrite IH.
    - assert (n0 <> n). { apply (H ((k0, n0), v0)). apply in_or_app. right. left. auto. }
      apply N.eqb_neq in H0. rewrite H0, andb_false_r. auto.
    - intros e He. apply H. apply in_or_app; auto.
  Qed.

  Definition reduces (E mem : list entry) : Prop := forall k n v, In ((k, n), v) mem <-> last_at E k n = Some v.

  (** ** Log replay *)
  Definition surv_rec (s : list entry) (r : logrec) : list entry :=
    match r with
    | LEntry n k v => s ++ [((k, n), v)]
    | LRevert n => filter (below n) s
    | _ => s
    end.
  Definition survivors (log : list logrec) : list entry := fold_left surv_rec log [].
  Definition last_cmd (m : N) (log : list logrec) : N :=
    fold_left (fun c r => match r with LCommit n | LReset n | LRevert n => n | LEntry _ _ _ => c end) log m.

  Definition above (m : N) (e : entry) : bool := m <=? ever e.

  Lemma filter_comm {A} (f g : A -> bool) l : filter f (filter g l) = filter g (filter f l).
  Proof. induction l as [|a l IH]; simpl; auto. destruct (f a) eqn:F, (g a) eqn:G; simpl; rewrite ?F, ?G, IH; auto. Qed.

  Lemma replay_spec m log : r_cur (replay_log m log) = last_cmd m log /\
    r_entries (replay_log m log) = filter (above m) (survivors log).
  Proof.
    unfold replay_log, last_cmd, survivors.
    induction log as [|r log IH] using rev_ind; [auto|].
    rewrite !fold_left_app. simpl. destruct IH as (A & B).
    destruct r as [n k v|n|n|n]; simpl.
    - rewrite filter_app. simpl. unfold above at 2. unfold ever at 1. simpl.
      destruct (m <=? n); simpl; rewrite ?app_nil_r; split; auto. rewrite B; auto.
    - auto.
    - auto.
    - split; auto. rewrite B. apply filter_comm.
  Qed.

  Lemma survivors_app l1 r : survivors (l1 ++ [r]) = surv_rec (survivors l1) r.
  Proof. unfold survivors. rewrite fold_left_app. auto. Qed.
  Lemma last_cmd_app m l1 l2 : last_cmd m (l1 ++ l2) = last_cmd (last_cmd m l1) l2.
  Proof. unfold last_cmd. apply fold_left_app. Qed.
  Lemma last_cmd_indep log : (forall m, last_cmd m log = m) \/ (exists c, forall m, last_cmd m log = c).
  Proof.
    induction log as [|r log IH] using rev_ind; [left; auto|].
    destruct r as [n k v|n|n|n].
    - destruct IH as [H|(c & H)]; [left|right; exists c]; intros m; rewrite last_cmd_app; simpl; auto.
    - right; exists n; intros m; rewrite last_cmd_app; auto.
    - right; exists n; intros m; rewrite last_cmd_app; auto.
    - right; exists n; intros m; rewrite last_cmd_app; auto.
  Qed.

  (** ** Pending records *)
  Definition pend_rec (c : N) (r : logrec) : Prop := r = LReset c \/ exists k v, r = LEntry c k v.

  Lemma survivors_pend log p c : Forall (pend_rec c) p -> exists l, survivors (log ++ p) = survivors log ++ l /\ (forall e, In e l -> ever e = c).
  Proof.
    induction p as [|r p IH] using rev_ind; intros F; [exists []; rewrite !app_nil_r; split; auto; intros ? []|].
    apply Forall_app in F. destruct F as (F1 & F2). inversion F2 as [|? ? Hr _]; subst.
    destruct (IH F1) as (l & E & Hl). rewrite app_assoc, survivors_app, E.
    destruct Hr as [->|(k & v & ->)]; simpl.
    - exists l. auto.
    - exists (l ++ [((k, c), v)]). rewrite app_assoc. split; auto. intros e He. apply in_app_or in He.
      destruct He as [He|[<-|[]]]; auto.
  Qed.
  Lemma last_cmd_pend m p c : Forall (pend_rec c) p -> last_cmd m p = m \/ last_cmd m p = c.
  Proof.
    induction p as [|r p IH] using rev_ind; intros F; auto.
    apply Forall_app in F. destruct F as (F1 & F2). inversion F2 as [|? ? Hr _]; subst.
    rewrite last_cmd_app. destruct Hr as [->|(k & v & ->)]; simpl; auto.
  Qed.
  Lemma Forall_firstn {A} (P : A -> Prop) n l : Forall P l -> Forall P (firstn n l).
  Proof. revert n. induction l; intros [|n] H; simpl; auto. inversion H; subst. constructor; auto. Qed.

  (** ** Invariants *)
  Record winv (t : table) (w : world) : Prop := {
    wi_look : lookup_ok t;
    wi_files : files_ok (w_files w) (t_blocks t) (t_next_id t);
    wi_mem : reduces (filter (above (last_version (t_blocks t))) (survivors (w_log w ++ w_pend w))) (t_mem t);
    wi_old : forall e, In e (survivors (w_log w ++ w_pend w)) -> ever e < last_version (t_blocks t) ->
             exists e', In e' (bentries (t_blocks t)) /\ ever e' = ever e;
    wi_u32 : forall e, In e (survivors (w_log w ++ w_pend w)) -> ever e < u32max
  }.

  Record inv (t : table) (w : world) : Prop := {
    i_w : winv t w;
    i_pend : Forall (pend_rec (t_cur t)) (w_pend w);
    i_log : forall e, In e (survivors (w_log w)) -> ever e < last_cmd (last_version (t_blocks t)) (w_log w);
    i_m : last_version (t_blocks t) <= last_cmd (last_version (t_blocks t)) (w_log w);
    i_cur : last_cmd (last_version (t_blocks t)) (w_log w) <= t_cur t;
    i_curu : t_cur t < u32max
  }.

  Definition cset := K -> N -> V -> Prop.
  Definition csub (t : table) (c : N) : cset := fun k n v => In ((k, n), v) (content t) /\ n < c.

  (** what is on disk determines the set [C] of records and the version [rc] found when opening *)
  Definition disk_ok (files : list block) (log : list logrec) (C : cset) (rc : N) : Prop :=
    exists bs, blocks_ok bs /\ Permutation files bs /\ NoDup (map (@b_id K V) bs) /\
      rc = last_cmd (last_version bs) log /\
      (forall e, In e (survivors log) -> ever e < last_version bs -> exists e', In e' (bentries bs) /\ ever e' = ever e) /\
      (forall e, In e (survivors log) -> ever e < u32max) /\ rc < u32max /\
      (forall k n v, C k n v <-> n < rc /\ (In ((k, n), v) (bentries bs) \/
          last_at (filter (above (last_version bs)) (survivors log)) k n = Some v)).

  Lemma disk_ok_ext files log C C' rc : (forall k n v, C k n v <-> C' k n v) -> disk_ok files log C rc -> disk_ok files log C' rc.
  Proof.
    intros H (bs & A1 & A2 & A3 & A4 & A5 & A6 & A7 & A8). exists bs. repeat (split; [assumption|]).
    intros k n v. rewrite <- H. auto.
  Qed.

  Lemma last_at_above m l k n : last_at (filter (above m) l) k n = if m <=? n then last_at l k n else None.
  Proof. unfold above. apply (last_at_filter (fun x => m <=? x)). Qed.
  Lemma last_at_below m l k n : last_at (filter (below m) l) k n = if n <? m then last_at l k n else None.
  Proof. unfold below. apply (last_at_filter (fun x => x <? m)). Qed.

  (** a running table that is killed between two calls *)
  Lemma inv_disk t w j : inv t w ->
    exists rc, rc <= t_cur t /\ disk_ok (w_files w) (w_log w ++ firstn j (w_pend w)) (csub t (t_cur t)) rc /\
      (forall k n v, csub t (t_cur t) k n v -> n < rc).
  Proof.
    intros I. destruct (i_w _ _ I) as [L F M O U].
    set (m := last_version (t_blocks t)) in *.
    pose proof (Forall_firstn _ j _ (i_pend _ _ I)) as Fp.
    destruct (survivors_pend (w_log w) _ _ Fp) as (l & El & Hl).
    destruct (survivors_pend (w_log w) _ _ (i_pend _ _ I)) as (l2 & El2 & Hl2).
    set (rc := last_cmd m (w_log w ++ firstn j (w_pend w))).
    assert (Hrc : last_cmd m (w_log w) <= rc <= t_cur t).
    { unfold rc. rewrite last_cmd_app. pose proof (i_cur _ _ I). destruct (last_cmd_pend (last_cmd m (w_log w)) _ _ Fp) as [->| ->]; fold m in H; lia. }
    assert (Hb : forall e, In e (bentries (t_blocks t)) -> ever e < rc).
    { intros e He. apply (last_version_gt _ (lo_blocks L)) in He. pose proof (i_m _ _ I). fold m in H, He. lia. }
    assert (Hs : forall e, In e (survivors (w_log w)) -> ever e < rc).
    { intros e He. apply (i_log _ _ I) in He. fold m in He. lia. }
    assert (Hmem : forall k n v, n < t_cur t -> (In ((k, n), v) (t_mem t) <-> last_at (filter (above m) (survivors (w_log w))) k n = Some v)).
    { intros k n v Hn. rewrite (M k n v), El2, !last_at_above. rewrite last_at_app_other; [tauto|].
      intros e He. apply Hl2 in He. lia. }
    exists rc. split; [lia|]. split.
    - exists (t_blocks t). split; [apply L|]. split; [apply F|]. split; [apply F|]. split; [reflexivity|].
      rewrite El. split; [|split; [|split]].
      + intros e He Hlt. apply in_app_or in He. destruct He as [He|He].
        * apply O; auto. rewrite El2. apply in_or_app; auto.
        * apply Hl in He. pose proof (i_m _ _ I). pose proof (i_cur _ _ I). fold m in H, H0. lia.
      + intros e He. apply in_app_or in He. destruct He as [He|He].
        * apply U. rewrite El2. apply in_or_app; auto.
        * apply Hl in He. pose proof (i_curu _ _ I). lia.
      + pose proof (i_curu _ _ I). lia.
      + intros k n v. unfold csub, content. rewrite in_app_iff. split.
        * intros ([H|H] & Hn).
          { split; auto. apply (Hb _ H). }
          { apply Hmem in H; auto. assert (n < rc).
            { apply last_at_In in H. apply filter_In in H. destruct H as (H & _). apply (Hs _ H). }
            split; auto. right. rewrite last_at_above in *. rewrite last_at_app_other; auto.
            intros e He. apply Hl in He. lia. }
        * intros (Hn & H). assert (n < t_cur t) by lia. split; auto. destruct H as [H|H]; auto.
          right. apply Hmem; auto. rewrite last_at_above in *. rewrite last_at_app_other in H; auto.
          intros e He. apply Hl in He. lia.
    - intros k n v (H & Hn). unfold content in H. apply in_app_or in H. destruct H as [H|H]; [apply (Hb _ H)|].
      apply Hmem in H; auto. apply last_at_In in H. apply filter_In in H. destruct H as (H & _). apply (Hs _ H).
  Qed.

  (** ** Revert, step by step *)
  Lemma files_remove (fs pre : list block) b post next : files_ok fs (pre ++ b :: post) next ->
    files_ok (remove_file (b_id b) fs) (pre ++ post) next.
  Proof.
    intros F. pose proof (fo_nodup F) as ND. rewrite map_app in ND. simpl in ND.
    assert (H : forall x, In x (pre ++ post) -> b_id x <> b_id b).
    { intros x Hx E. apply NoDup_remove_2 in ND. apply ND. rewrite <- map_app, <- E. apply in_map; auto. }
    split.
    - unfold remove_file. rewrite (filter_perm _ (fo_perm F)). rewrite filter_app. simpl. rewrite N.eqb_refl. simpl.
      rewrite <- filter_app, filter_all; auto. intros x Hx. apply negb_true_iff, N.eqb_neq. auto.
    - rewrite map_app. apply NoDup_remove_1 in ND. auto.
    - intros x Hx. apply (fo_next F). apply in_app_or in Hx. apply in_or_app. simpl. tauto.
  Qed.

  Lemma files_replace (fs pre : list block) b post next nb : files_ok fs (pre ++ b :: post) next -> b_id nb = b_id b ->
    files_ok (put_file nb fs) (pre ++ nb :: post) next.
  Proof.
    intros F E. pose proof (files_remove _ _ _ _ _ F) as F2. split.
    - unfold put_file. rewrite E. change (filter (fun x : block => negb (b_id x =? b_id b)) fs) with (remove_file (b_id b) fs).
      rewrite (fo_perm F2). rewrite <- app_assoc. apply Permutation_app_head. symmetry. apply Permutation_cons_append.
    - pose proof (fo_nodup F) as ND. rewrite map_app in *. simpl in *. rewrite E. auto.
    - intros x Hx. apply in_app_or in Hx. destruct Hx as [Hx|[<-|Hx]].
      + apply (fo_next F). apply in_or_app; auto.
      + rewrite E. apply (fo_next F). apply in_or_app. right; left; auto.
      + apply (fo_next F). apply in_or_app. right; right; auto.
  Qed.

  Lemma apply_effs_app (w : world) es1 es2 : apply_effs w (es1 ++ es2) = apply_effs (apply_effs w es1) es2.
  Proof. unfold apply_effs. apply fold_left_app. Qed.

  (** block effects only touch the files *)
  Definition file_eff (e : eff) : Prop := match e with EPut _ | ERemove _ | EMerge _ _ => True | _ => False end.
  Lemma file_effs_log w es : Forall file_eff es -> w_log (apply_effs w es) = w_log w /\ w_pend (apply_effs w es) = w_pend w.
  Proof.
    revert w. induction es as [|e es IH]; intros w F; [auto|]. inversion F; subst. simpl.
    change (fold_left apply_eff es (apply_eff w e)) with (apply_effs (apply_eff w e) es).
    destruct (IH (apply_eff w e)) as (A & B); auto. rewrite A, B. destruct e; simpl in *; tauto.
  Qed.

  Lemma revert_file_effs n (bs : list block) : Forall file_eff (snd (revert_blocks kcmp n bs)).
  Proof.
    induction bs as [|b bs IH]; simpl; [constructor|].
    unfold revert_block. destruct (revert_blocks kcmp n bs) as (bs2, e2). simpl in IH.
    destruct (n <=? b_min b); simpl; [constructor; simpl; auto|]. destruct (n <=? b_max b); simpl; auto. constructor; simpl; auto.
  Qed.

  Lemma revert_blocks_app n (bs1 bs2 : list block) : fst (revert_blocks kcmp n (bs1 ++ bs2)) = fst (revert_blocks kcmp n bs1) ++ fst (revert_blocks kcmp n bs2).
  Proof.
    induction bs1 as [|b bs1 IH]; simpl; auto.
    destruct (revert_block kcmp n b) as (ob, e1). destruct (revert_blocks kcmp n (bs1 ++ bs2)) as (x, y).
    destruct (revert_blocks kcmp n bs1) as (x1, y1). simpl in *. subst x. destruct ob; auto.
  Qed.

  Lemma revert_prefix n (bs : list block) : forall pre w next j, files_ok (w_files w) (pre ++ bs) next ->
    exists bs1 bs2, bs = bs1 ++ bs2 /\
      files_ok (w_files (apply_effs w (firstn j (snd (revert_blocks kcmp n bs))))) (pre ++ fst (revert_blocks kcmp n bs1) ++ bs2) next /\
      ((length (snd (revert_blocks kcmp n bs)) <= j)%nat -> bs2 = []).
  Proof.
    induction bs as [|b bs IH]; intros pre w next j F.
    - exists [], []. split; auto. simpl. rewrite firstn_nil. split; auto.
    - cbn [revert_blocks]. destruct (revert_blocks kcmp n bs) as (x, y) eqn:Ex. cbn [snd] in IH.
      unfold revert_block.
      destruct (n <=? b_min b) eqn:E1; [|destruct (n <=? b_max b) eqn:E2].
      + cbn [snd app]. destruct j as [|j].
        * exists [], (b :: bs). simpl. split; auto. split; auto. lia.
        * cbn [firstn]. pose proof (files_remove _ _ _ _ _ F) as F2.
          destruct (IH pre (apply_eff w (ERemove (b_id b))) next j F2) as (bs1 & bs2 & Eb & F3 & Hj).
          exists (b :: bs1), bs2. rewrite Eb. split; auto. split.
          { cbn [revert_blocks]. unfold revert_block. rewrite E1. destruct (revert_blocks kcmp n bs1) as (x1, y1). cbn [fst]. exact F3. }
          { simpl. intros. apply Hj. lia. }
      + cbn [snd app]. set (nb := mk_block _ _ _ _ _ _) in *. destruct j as [|j].
        * exists [], (b :: bs). simpl. split; auto. split; auto. lia.
        * cbn [firstn]. pose proof (files_replace _ _ _ _ _ nb F eq_refl) as F2.
          replace (pre ++ nb :: bs) with ((pre ++ [nb]) ++ bs) in F2 by (rewrite <- app_assoc; auto).
          destruct (IH (pre ++ [nb]) (apply_eff w (EPut nb)) next j F2) as (bs1 & bs2 & Eb & F3 & Hj).
          exists (b :: bs1), bs2. rewrite Eb. split; auto. split.
          { cbn [revert_blocks]. unfold revert_block. rewrite E1, E2. destruct (revert_blocks kcmp n bs1) as (x1, y1). cbn [fst] in F3 |- *.
            rewrite <- app_assoc in F3. exact F3. }
          { simpl. intros. apply Hj. lia. }
      + cbn [snd app]. replace (pre ++ b :: bs) with ((pre ++ [b]) ++ bs) in F by (rewrite <- app_assoc; auto).
        destruct (IH (pre ++ [b]) w next j F) as (bs1 & bs2 & Eb & F3 & Hj).
        exists (b :: bs1), bs2. rewrite Eb. split; auto. split; auto.
        cbn [revert_blocks]. unfold revert_block. rewrite E1, E2. destruct (revert_blocks kcmp n bs1) as (x1, y1). cbn [fst] in F3 |- *.
        rewrite <- app_assoc in F3. exact F3.
  Qed.

  Lemma stage_blocks_ok n (bs1 bs2 : list block) : blocks_ok (bs1 ++ bs2) ->
    blocks_ok (fst (revert_blocks kcmp n bs1) ++ bs2).
  Proof.
    intros B. destruct (blocks_ok_app _ _ B) as (B1 & B2 & H).
    destruct (revert_blocks_ok n B1) as (R1 & R2 & R3).
    apply blocks_ok_app_intro; auto. intros a b Ha Hb. apply R3 in Ha. destruct Ha as (a0 & Ha0 & _ & _ & Hmx & _).
    specialize (H a0 b Ha0 Hb). unfold blt in *. lia.
  Qed.

  Lemma stage_entries n (bs1 bs2 : list block) e : blocks_ok (bs1 ++ bs2) ->
    (In e (bentries (fst (revert_blocks kcmp n bs1) ++ bs2)) -> In e (bentries (bs1 ++ bs2))) /\
    (ever e < n -> In e (bentries (bs1 ++ bs2)) -> In e (bentries (fst (revert_blocks kcmp n bs1) ++ bs2))).
  Proof.
    intros B. destruct (blocks_ok_app _ _ B) as (B1 & B2 & H).
    destruct (revert_blocks_ok n B1) as (R1 & R2 & R3).
    unfold bentries in *. rewrite !flat_map_app, R2, !in_app_iff, filter_In. unfold below. rewrite N.ltb_lt. tauto.
  Qed.

  Lemma last_version_mono (l l' : list block) : blocks_ok l -> blocks_ok l' ->
    (forall e, In e (bentries l) -> In e (bentries l')) -> last_version l <= last_version l'.
  Proof.
    intros Bl Bl' Hl. destruct l as [|b l]; [apply N.le_0_l|].
    destruct (last_version_attained Bl) as (e & He & ->); [discriminate|]. apply Hl in He. apply (last_version_gt _ Bl') in He. lia.
  Qed.

  Section Revert.
    Variables (t : table) (w : world) (n : N).
    Hypothesis W : winv t w.
    Hypothesis Hcur : n <= t_cur t.
    Hypothesis Hu : n < u32max.

    Let S0 := survivors (w_log w ++ w_pend w).
    Let m := last_version (t_blocks t).

    (** the log part is stable under lowering the block version while reverting *)
    Lemma stage_log bs1 bs2 : t_blocks t = bs1 ++ bs2 ->
      let sb := fst (revert_blocks kcmp n bs1) ++ bs2 in
      (forall e, In e S0 -> ever e < n -> ever e < m -> exists e', In e' (bentries sb) /\ ever e' = ever e) /\
      last_version sb <= m /\
      filter (above (last_version sb)) (filter (below n) S0) = filter (below n) (filter (above m) S0).
    Proof.
      intros E sb. pose proof (lo_blocks (wi_look _ _ W)) as B. rewrite E in B.
      pose proof (stage_blocks_ok n _ _ B) as Bs. fold sb in Bs.
      assert (A : forall e, In e S0 -> ever e < n -> ever e < m -> exists e', In e' (bentries sb) /\ ever e' = ever e).
      { intros e He Hn Hm. destruct (wi_old _ _ W e He Hm) as (e' & He' & Ee'). exists e'. split; auto.
        rewrite E in He'. destruct (stage_entries n bs1 bs2 e' B) as (_ & Hx). apply Hx; auto. lia. }
      assert (Hle : last_version sb <= m).
      { unfold m. rewrite E. apply last_version_mono; auto. intros e. apply (stage_entries n bs1 bs2 e B). }
      split; auto. split; auto.
      rewrite (filter_comm (above (last_version sb)) (below n)).
      assert (G : forall l, (forall e, In e l -> In e S0) ->
         filter (below n) (filter (above (last_version sb)) l) = filter (below n) (filter (above m) l)).
      { induction l as [|e l IH]; intros Hl; auto. simpl.
        assert (IH' : filter (below n) (filter (above (last_version sb)) l) = filter (below n) (filter (above m) l))
          by (apply IH; intros; apply Hl; right; auto).
        change (above (last_version sb) e) with (last_version sb <=? ever e). change (above m e) with (m <=? ever e).
        destruct (N.leb_spec (last_version sb) (ever e)) as [L1|L1], (N.leb_spec m (ever e)) as [L2|L2]; simpl; auto; try lia.
        - rewrite IH'. auto.
        - change (below n e) with (ever e <? n). destruct (N.ltb_spec (ever e) n) as [L3|L3]; auto. exfalso.
          destruct (A e) as (e' & He' & Ee'); auto; [apply Hl; left; auto|].
          apply (last_version_gt _ Bs) in He'. lia. }
      apply G. auto.
    Qed.

    Let log' := w_log w ++ w_pend w ++ [LRevert n].

    Lemma surv_log' : survivors log' = filter (below n) S0.
    Proof. unfold log'. rewrite app_assoc, survivors_app. auto. Qed.
    Lemma cmd_log' x : last_cmd x log' = n.
    Proof. unfold log'. rewrite app_assoc, last_cmd_app. auto. Qed.

    Lemma stage_disk bs1 bs2 fs next : t_blocks t = bs1 ++ bs2 ->
      files_ok fs (fst (revert_blocks kcmp n bs1) ++ bs2) next ->
      disk_ok fs log' (csub t n) n.
    Proof.
      intros E F. destruct (stage_log bs1 bs2 E) as (A & Hle & G).
      set (sb := fst (revert_blocks kcmp n bs1) ++ bs2) in *.
      pose proof (lo_blocks (wi_look _ _ W)) as B. rewrite E in B.
      pose proof (stage_blocks_ok n _ _ B) as Bs. fold sb in Bs.
      exists sb. split; auto. split; [apply F|]. split; [apply F|]. split; [symmetry; apply cmd_log'|].
      rewrite surv_log'. split; [|split; [|split; auto]].
      - intros e He Hlt. apply filter_In in He. destruct He as (He & Hn). apply N.ltb_lt in Hn. apply A; auto. lia.
      - intros e He. apply filter_In in He. apply (wi_u32 _ _ W). tauto.
      - intros k v' v. unfold csub, content. rewrite G, last_at_below, in_app_iff, (wi_mem _ _ W k v' v).
        pose proof (stage_entries n bs1 bs2 ((k, v'), v) B) as (X1 & X2). fold m. rewrite E. fold sb in X1, X2. unfold ever in X2; simpl in X2.
        fold S0. split.
        + intros ([H|H] & Hn); (split; [assumption|]).
          * left. apply X2; auto.
          * right. apply N.ltb_lt in Hn. rewrite Hn. auto.
        + intros (Hn & H). split; [|assumption]. destruct H as [H|H].
          * left. apply X1; auto.
          * right. apply N.ltb_lt in Hn. rewrite Hn in H. auto.
    Qed.

    Lemma revert_all : exists t' es, t_revert kcmp n t = Some (t', es) /\ t_cur t' = n /\
      (forall e, In e (content t') <-> In e (content t) /\ ever e < n) /\
      inv t' (apply_effs w es) /\
      (exists e2, es = EAppend (LRevert n) :: EFlush :: e2) /\
      (forall j, disk_ok (w_files (apply_effs w (firstn (S (S j)) es))) (w_log (apply_effs w (firstn (S (S j)) es))) (csub t n) n /\
                 w_pend (apply_effs w (firstn (S (S j)) es)) = []).
    Proof.
      destruct (revert_lookup TK (wi_look _ _ W) Hcur) as (t' & es & E & L' & C1 & C2 & C3 & C4 & C5 & C6).
      exists t', es. split; auto. split; auto. split.
      { intros e. rewrite C2, filter_In. unfold below. rewrite N.ltb_lt. tauto. }
      set (ebs := snd (revert_blocks kcmp n (t_blocks t))) in *.
      set (w2 := mk_world (w_files w) log' []).
      assert (Hw2 : forall j, apply_effs w (firstn (S (S j)) es) = apply_effs w2 (firstn j ebs)).
      { intros j. rewrite C6. simpl. unfold w2, log'. auto. }
      assert (Hall : apply_effs w es = apply_effs w2 ebs) by (rewrite C6; simpl; unfold w2, log'; auto).
      assert (Hlog : forall j, w_log (apply_effs w2 (firstn j ebs)) = log' /\ w_pend (apply_effs w2 (firstn j ebs)) = []).
      { intros j. destruct (file_effs_log w2 (firstn j ebs)) as (A & B); auto. apply Forall_firstn. apply revert_file_effs. }
      assert (Hst : forall j, exists bs1 bs2, t_blocks t = bs1 ++ bs2 /\
         files_ok (w_files (apply_effs w2 (firstn j ebs))) (fst (revert_blocks kcmp n bs1) ++ bs2) (t_next_id t) /\
         ((length ebs <= j)%nat -> bs2 = [])).
      { intros j. apply (revert_prefix n (t_blocks t) [] w2 (t_next_id t) j). apply (wi_files _ _ W). }
      split; [|split; [exists ebs; auto|]].
      - rewrite Hall. destruct (Hst (length ebs)) as (bs1 & bs2 & Eb & Fb & Hb2). rewrite (Hb2 ltac:(lia)) in *.
        rewrite firstn_all in Fb. rewrite !app_nil_r in *. subst bs1. rewrite <- C4 in Fb.
        destruct (file_effs_log w2 ebs (revert_file_effs n _)) as (G1 & G2). unfold w2 in G1, G2; simpl in G1, G2.
        destruct (stage_log (t_blocks t) []) as (A & Hle & G); [rewrite app_nil_r; auto|]. rewrite app_nil_r in *. rewrite <- C4 in *.
        assert (Hb' : last_version (t_blocks t') <= n).
        { destruct (t_blocks t') as [|b0 l0] eqn:Eb; [apply N.le_0_l|]. rewrite <- Eb.
          destruct (last_version_attained (lo_blocks L')) as (e & He & ->); [rewrite Eb; discriminate|].
          rewrite Eb, C4 in He. destruct (revert_blocks_ok n (lo_blocks (wi_look _ _ W))) as (_ & R2 & _).
          rewrite R2 in He. apply filter_In in He. destruct He as (_ & He). apply N.ltb_lt in He. lia. }
        split.
        + split; auto.
          * rewrite C5. auto.
          * unfold w2. rewrite G1, G2, app_nil_r, surv_log', G, C3. intros k v' v. rewrite filter_In, last_at_below, (wi_mem _ _ W k v' v).
            fold m S0. unfold below, ever; simpl. destruct (v' <? n); intuition congruence.
          * unfold w2. rewrite G1, G2, app_nil_r, surv_log'. intros e He Hlt. apply filter_In in He. destruct He as (He & Hn).
            apply N.ltb_lt in Hn. apply A; auto. lia.
          * unfold w2. rewrite G1, G2, app_nil_r, surv_log'. intros e He. apply filter_In in He. apply (wi_u32 _ _ W). tauto.
        + unfold w2. rewrite G2. constructor.
        + unfold w2. rewrite G1, surv_log', cmd_log'. intros e He. apply filter_In in He. destruct He as (_ & He). apply N.ltb_lt in He. auto.
        + unfold w2. rewrite G1, cmd_log'. auto.
        + unfold w2. rewrite G1, cmd_log'. lia.
        + lia.
      - intros j. rewrite Hw2. destruct (Hlog j) as (G1 & G2). split; auto. rewrite G1.
        destruct (Hst j) as (bs1 & bs2 & Eb & Fb & _). eapply stage_disk; eauto.
    Qed.
  End Revert.
End P.
