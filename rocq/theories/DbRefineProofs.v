(** Every operation and every crash point keeps the table equal to the list of surviving writes. *)
Require Import List Sorted Permutation NArith Lia Bool Arith.
Require Import Verif.OrdLib Verif.DbModel Verif.DbSpec Verif.DbBlockProofs Verif.DbOpsProofs Verif.DbCrashProofs.
Import ListNotations.
Open Scope N_scope.

Section P.
  Context {K V : Type} (kcmp : K -> K -> comparison).
  Hypothesis TK : TotalCmp kcmp.
  Notation entry := (@entry K V).
  Notation block := (@block K V).
  Notation table := (@table K V).
  Notation logrec := (@logrec K V).
  Notation world := (@world K V).
  Notation eff := (@eff K V).
  Notation vcmp := (vcmp kcmp).
  Notation keqb := (keqb kcmp).
  Notation TV := (TV TK).
  Notation esorted := (esorted kcmp).
  Notation blocks_ok := (blocks_ok kcmp).
  Notation lookup_ok := (lookup_ok kcmp).
  Notation inv := (inv kcmp).
  Notation winv := (winv kcmp).
  Notation disk_ok := (disk_ok kcmp).
  Notation last_at := (last_at kcmp).
  Notation reduces := (reduces kcmp).

  Implicit Types (t tj : table) (w : world) (e : entry).

  Definition same (t t' : table) : Prop := (forall e, In e (content t') <-> In e (content t)) /\ t_cur t' = t_cur t.
  Lemma same_refl t : same t t.
  Proof. split; auto. tauto. Qed.
  Lemma same_trans t1 t2 t3 : same t1 t2 -> same t2 t3 -> same t1 t3.
  Proof. intros (A & B) (C & D). split; [|congruence]. intros e. rewrite C. auto. Qed.

  Definition good_disk (t : table) (d : list block * list logrec) : Prop :=
    exists rc, rc <= t_cur t /\ disk_ok (fst d) (snd d) (csub t (t_cur t)) rc.

  Lemma good_same t t' d : same t t' -> good_disk t' d -> good_disk t d.
  Proof.
    intros (A & B) (rc & C & D). exists rc. rewrite <- B. split; auto. revert D. apply disk_ok_ext.
    intros k n v. unfold csub. rewrite A. tauto.
  Qed.
  Lemma inv_good t w j : inv t w -> good_disk t (crash_disk w j).
  Proof. intros I. destruct (inv_disk kcmp TK t w j I) as (rc & A & B & _). exists rc. auto. Qed.

  Lemma last_at_snoc_b (l : list entry) k n (v : V) k' n' : last_at (@app entry l (@cons (K * N * V) ((k, n), v) (@nil (K * N * V)))) k' n' =
    if keqb k k' && (n =? n') then Some v else last_at l k' n'.
  Proof. apply last_at_snoc. Qed.
  Lemma last_at_snoc_c (l : list entry) k n (v : V) k' n' : last_at (@app (K * N * V) l (@cons (K * N * V) ((k, n), v) (@nil (K * N * V)))) k' n' =
    if keqb k k' && (n =? n') then Some v else last_at l k' n'.
  Proof. apply last_at_snoc. Qed.
  Lemma last_at_snoc_d (l : list entry) k n (v : V) k' n' : last_at (@app (K * N * V) l (@cons entry ((k, n), v) (@nil entry))) k' n' =
    if keqb k k' && (n =? n') then Some v else last_at l k' n'.
  Proof. apply last_at_snoc. Qed.
  Ltac snoc := first [rewrite last_at_snoc | rewrite last_at_snoc_b | rewrite last_at_snoc_c | rewrite last_at_snoc_d].
  Ltac snoc_in H := first [rewrite last_at_snoc in H | rewrite last_at_snoc_b in H | rewrite last_at_snoc_c in H | rewrite last_at_snoc_d in H].

  (** ** Facts from [inv] *)
  Lemma inv_mem_ver t w e : inv t w -> In e (t_mem t) -> last_version (t_blocks t) <= ever e <= t_cur t.
  Proof.
    intros I He. destruct e as ((k, n), v). apply (wi_mem _ _ _ (i_w _ _ _ I)) in He.
    rewrite (last_at_above kcmp) in He. destruct (N.leb_spec (last_version (t_blocks t)) n); [|discriminate]. unfold ever; simpl. split; auto.
    destruct (survivors_pend (w_log w) _ _ (i_pend _ _ _ I)) as (l & El & Hl). rewrite El in He.
    apply (last_at_In kcmp TK) in He. apply in_app_or in He. destruct He as [He|He].
    - apply (i_log _ _ _ I) in He. pose proof (i_cur _ _ _ I). unfold ever in *; simpl in *. lia.
    - apply Hl in He. unfold ever in *; simpl in *. lia.
  Qed.
  Lemma inv_block_ver t w e : inv t w -> In e (bentries (t_blocks t)) -> ever e < t_cur t.
  Proof.
    intros I He. apply (last_version_gt _ (lo_blocks (wi_look _ _ _ (i_w _ _ _ I)))) in He.
    pose proof (i_cur _ _ _ I). pose proof (i_m _ _ _ I). lia.
  Qed.
  Lemma inv_blocks_max t w b : inv t w -> In b (t_blocks t) -> b_max b < t_cur t.
  Proof.
    intros I Hb. pose proof (lo_blocks (wi_look _ _ _ (i_w _ _ _ I))) as (F & _).
    rewrite Forall_forall in F. destruct (bo_max (F _ Hb)) as (e & He & <-).
    eapply inv_block_ver; eauto. apply in_flat_map. eauto.
  Qed.

  (** ** Insert *)
  Lemma insert_inv t w k v : inv t w ->
    inv (insert_entry kcmp (t_cur t) k v t) (apply_eff w (EAppend (LEntry (t_cur t) k v))).
  Proof.
    intros I. destruct (i_w _ _ _ I) as [L F M O U].
    assert (Hs : survivors (w_log w ++ w_pend w ++ [LEntry (t_cur t) k v]) = survivors (w_log w ++ w_pend w) ++ [((k, t_cur t), v)]).
    { rewrite app_assoc, survivors_app. auto. }
    assert (Hm : last_version (t_blocks t) <= t_cur t).
    { pose proof (i_cur _ _ _ I). pose proof (i_m _ _ _ I). lia. }
    split; simpl.
    - split; simpl; auto.
      + apply (insert_entry_ok TK); auto; [apply (i_curu _ _ _ I)| |].
        * intros e He. eapply inv_mem_ver; eauto.
        * intros b Hb. eapply inv_blocks_max; eauto.
      + rewrite Hs. intros k' n' v'. rewrite (aset_In TV); [|apply (lo_mem L)].
        rewrite (M k' n' v'). rewrite !(last_at_above kcmp).
        snoc.
        destruct (keqb k k' && (t_cur t =? n')) eqn:E.
        * apply andb_true_iff in E. destruct E as (E1 & E2). apply (keqb_eq TK) in E1. apply N.eqb_eq in E2. subst.
          apply N.leb_le in Hm. rewrite Hm. intuition congruence.
        * assert ((k', n') <> (k, t_cur t)). { intros [= -> ->]. rewrite (keqb_refl TK), N.eqb_refl in E. discriminate. }
          intuition congruence.
      + rewrite Hs. intros e He Hlt. apply in_app_or in He. destruct He as [He|[<-|[]]]; auto. unfold ever in Hlt; simpl in Hlt. lia.
      + rewrite Hs. intros e He. apply in_app_or in He. destruct He as [He|[<-|[]]]; auto. apply (i_curu _ _ _ I).
    - apply Forall_app. split; [apply (i_pend _ _ _ I)|]. constructor; auto. right. eauto.
    - apply (i_log _ _ _ I).
    - apply (i_m _ _ _ I).
    - apply (i_cur _ _ _ I).
    - apply (i_curu _ _ _ I).
  Qed.
  Lemma insert_content t w k v k' n' v' : inv t w ->
    (In ((k', n'), v') (content (insert_entry kcmp (t_cur t) k v t)) <->
     if keqb k k' && (t_cur t =? n') then v' = v else In ((k', n'), v') (content t)).
  Proof.
    intros I. unfold content. simpl. rewrite !in_app_iff, (aset_In TV); [|apply (lo_mem (wi_look _ _ _ (i_w _ _ _ I)))].
    destruct (keqb k k' && (t_cur t =? n')) eqn:E.
    - apply andb_true_iff in E. destruct E as (E1 & E2). apply (keqb_eq TK) in E1. apply N.eqb_eq in E2. subst.
      split; [|auto]. intros [H|[(_ & H)|(H & _)]]; [|auto|congruence].
      apply (inv_block_ver _ _ _ I) in H. unfold ever in H; simpl in H. lia.
    - assert ((k', n') <> (k, t_cur t)). { intros [= -> ->]. rewrite (keqb_refl TK), N.eqb_refl in E. discriminate. }
      rewrite in_app_iff. intuition congruence.
  Qed.

  (** ** Merging *)
  Lemma bentries_perm (pre sel post : list block) nb : Permutation (b_entries nb) (bentries sel) ->
    Permutation (bentries (pre ++ nb :: post)) (bentries (pre ++ sel ++ post)).
  Proof.
    intros P. unfold bentries in *. rewrite !flat_map_app. simpl. apply Permutation_app_head. apply Permutation_app; auto.
  Qed.

  Lemma set_blocks_inv t w bs' next' fs' : inv t w -> blocks_ok bs' -> Permutation (bentries bs') (bentries (t_blocks t)) ->
    files_ok fs' bs' next' ->
    inv (mk_table (t_cur t) (t_last_flush t) next' bs' (t_mem t) (t_idx t)) (mk_world fs' (w_log w) (w_pend w)).
  Proof.
    intros I B P F'. destruct (i_w _ _ _ I) as [L F M O U].
    assert (Hin : forall e, In e (bentries bs') <-> In e (bentries (t_blocks t))).
    { intros e. split; apply Permutation_in; auto. symmetry; auto. }
    assert (Hm : last_version bs' = last_version (t_blocks t)).
    { apply (@last_version_ext K V kcmp); auto. apply (lo_blocks L). }
    split; simpl; rewrite ?Hm; try apply I.
    split; simpl; rewrite ?Hm; auto.
    - split; simpl; try apply L; auto.
      intros b e Hb He. destruct B as (Fb & _). rewrite Forall_forall in Fb. destruct (bo_max (Fb _ Hb)) as (x & Hx & <-).
      assert (In x (bentries (t_blocks t))). { apply Hin. apply in_flat_map. eauto. }
      eapply lookup_ver; eauto.
    - intros e He Hlt. destruct (O e He Hlt) as (e' & He' & E). exists e'. rewrite Hin. auto.
  Qed.

  Lemma rewrite_steps lf fuel : forall t w, inv t w -> (length (t_blocks t) < fuel)%nat ->
    exists bs' next' es, check_rewrite kcmp fuel lf (t_next_id t) (t_blocks t) = Some (bs', next', es) /\
      let t' := mk_table (t_cur t) (t_last_flush t) next' bs' (t_mem t) (t_idx t) in
      inv t' (apply_effs w es) /\ same t t' /\
      (forall j, exists tj, inv tj (apply_effs w (firstn j es)) /\ same t tj).
  Proof.
    induction fuel as [|fuel IH]; intros t w I Hf; [lia|].
    cbn [check_rewrite].
    assert (Hnone : exists bs' next' es, Some (t_blocks t, t_next_id t, []) = Some (bs', next', es) /\
      let t' := mk_table (t_cur t) (t_last_flush t) next' bs' (t_mem t) (t_idx t) in
      inv t' (apply_effs w es) /\ same t t' /\
      (forall j, exists tj, inv tj (apply_effs w (firstn j es)) /\ same t tj)).
    { exists (t_blocks t), (t_next_id t), []. split; auto. destruct t; simpl. split; auto. split; [apply same_refl|].
      intros j. rewrite firstn_nil. eexists. split; [exact I|]. apply same_refl. }
    destruct (Nat.leb lf 1) eqn:E1; auto.
    destruct (select lf [] [] 0 (t_blocks t)) as [(((pre, sel), post), level)|] eqn:E2; auto.
    apply select_spec in E2. simpl in E2. destruct E2 as (Eb & Hl). apply Nat.leb_gt in E1.
    pose proof (lo_blocks (wi_look _ _ _ (i_w _ _ _ I))) as B. rewrite Eb in B.
    destruct (blocks_ok_app _ _ B) as (_ & B2 & _). destruct (blocks_ok_app _ _ B2) as (Bsel & _ & _).
    assert (Hne : sel <> []) by (intros ->; simpl in Hl; lia).
    destruct (rewrite_blocks_ok TK (t_next_id t) (level + 1) Bsel Hne) as (nb & En & Bn & Hid & Hlv & Hp).
    rewrite En.
    pose proof (merge_in_list _ _ B Hne Bn Hp) as Bm.
    pose proof (wi_files _ _ _ (i_w _ _ _ I)) as Fo. rewrite Eb in Fo.
    pose proof (files_merge _ _ _ _ Fo Hid) as Fm. simpl in Fm.
    set (t1 := mk_table (t_cur t) (t_last_flush t) (t_next_id t + 1) (pre ++ nb :: post) (t_mem t) (t_idx t)).
    set (w1 := apply_eff w (EMerge nb (map (@b_id K V) sel))).
    assert (Pb : Permutation (bentries (pre ++ nb :: post)) (bentries (t_blocks t))).
    { rewrite Eb. apply bentries_perm; auto. }
    assert (I1 : inv t1 w1). { apply set_blocks_inv; auto. }
    assert (S1 : same t t1).
    { split; auto. intros e. unfold t1, content. simpl. rewrite !in_app_iff. split; intros [H|H]; auto; left.
      - eapply Permutation_in; [exact Pb|auto].
      - eapply Permutation_in; [symmetry; exact Pb|auto]. }
    destruct (IH t1 w1 I1) as (bs' & next' & es & Ec & I2 & S2 & St).
    { unfold t1; simpl. rewrite Eb in Hf. rewrite !app_length in *. simpl. lia. }
    unfold t1 in Ec. cbn [t_next_id t_blocks] in Ec. rewrite Ec.
    exists bs', next', (EMerge nb (map (@b_id K V) sel) :: es). split; auto. split; [exact I2|]. split.
    - eapply same_trans; [exact S1|exact S2].
    - intros [|j].
      + exists t. split; auto. apply same_refl.
      + destruct (St j) as (tj & Ij & Sj). exists tj. split; [exact Ij|]. eapply same_trans; eauto.
  Qed.

  Lemma t_rewrite_steps lf t w : inv t w ->
    exists t' es, t_check_rewrite kcmp lf t = Some (t', es) /\ inv t' (apply_effs w es) /\ same t t' /\
      t_last_flush t' = t_last_flush t /\
      (forall j, exists tj, inv tj (apply_effs w (firstn j es)) /\ same t tj).
  Proof.
    intros I. destruct (rewrite_steps lf (S (length (t_blocks t))) t w I ltac:(lia)) as (bs' & next' & es & E & I' & S' & H).
    unfold t_check_rewrite. rewrite E. eexists; eexists. split; [reflexivity|]. auto.
  Qed.

  (** ** Flush right after a commit *)
  Lemma inv_nolog t (fs : list block) : lookup_ok t -> t_mem t = [] -> files_ok fs (t_blocks t) (t_next_id t) ->
    last_version (t_blocks t) <= t_cur t -> t_cur t < u32max -> inv t (mk_world fs [] []).
  Proof.
    intros L Hm F H1 H2. split; simpl.
    - split; simpl; auto; [|intros e []|intros e []]. rewrite Hm. intros k n v. split; [intros []|discriminate].
    - constructor.
    - intros e [].
    - unfold last_cmd; simpl. apply N.le_refl.
    - exact H1.
    - exact H2.
  Qed.

  Lemma flush_steps lf t w : inv t w -> w_pend w = [] -> (forall e, In e (t_mem t) -> ever e < t_cur t) ->
    exists t' es, t_flush kcmp lf t = Some (t', es) /\ inv t' (apply_effs w es) /\ same t t' /\
      (forall j, exists tj, inv tj (apply_effs w (firstn j es)) /\ same t tj).
  Proof.
    intros I Hp Hm. destruct (i_w _ _ _ I) as [L F M O U]. rewrite Hp, app_nil_r in *.
    set (m := last_version (t_blocks t)) in *.
    unfold t_flush. destruct (t_mem t) as [|e0 mem0] eqn:Em.
    - set (t1 := mk_table (t_cur t) (t_cur t) (t_next_id t) (t_blocks t) [] (t_idx t)).
      assert (L1 : lookup_ok t1).
      { split; simpl; try apply L; try (rewrite <- Em; apply L); intros; simpl in *; tauto. }
      assert (I1 : inv t1 (mk_world (w_files w) [] [])).
      { apply inv_nolog; auto; [|apply (i_curu _ _ _ I)].
        pose proof (i_cur _ _ _ I). pose proof (i_m _ _ _ I). simpl. lia. }
      assert (I2 : inv t1 (mk_world (w_files w) [] [LReset (t_cur t)])).
      { split; simpl; try apply I1.
        - split; simpl; auto; [|intros e []|intros e []]. intros k n v. split; [intros []|discriminate].
        - constructor; auto. left. auto. }
      assert (S1 : same t t1). { split; auto. intros e. unfold content. simpl. rewrite Em. tauto. }
      eexists; eexists. split; [reflexivity|]. split; [exact I2|]. split; [exact S1|].
      intros [|[|[|j]]]; simpl.
      + exists t. split; auto. apply same_refl.
      + exists t1. auto.
      + exists t1. auto.
      + exists t1. auto.
    - rewrite <- Em in *. assert (Hne : t_mem t <> []) by congruence.
      set (b := make_block kcmp (t_next_id t) 0 (t_mem t)).
      set (t1 := mk_table (t_cur t) (t_cur t) (t_next_id t + 1) (t_blocks t ++ [b]) [] []).
      assert (Hb : block_ok kcmp b). { apply make_block_ok; auto; apply L. }
      assert (Hbe : b_entries b = t_mem t) by reflexivity.
      assert (B1 : blocks_ok (t_blocks t ++ [b])).
      { apply blocks_ok_app_intro; [apply L|split; [constructor; auto|constructor; constructor]|].
        intros a c Ha [<-|[]]. destruct (bo_min Hb) as (e & He & Ee). unfold blt. rewrite <- Ee. apply (lo_ver L); auto. }
      assert (Hbs : forall e, In e (bentries (t_blocks t ++ [b])) <-> In e (content t)).
      { intros e. unfold bentries, content. rewrite flat_map_app. simpl. rewrite app_nil_r. tauto. }
      assert (Hin : forall e, In e (survivors (w_log w)) -> exists e', In e' (content t) /\ ever e' = ever e).
      { intros e He. destruct (N.lt_ge_cases (ever e) m) as [Hlt|Hge].
        - destruct (O e He Hlt) as (e' & A1 & A2). exists e'. split; auto. unfold content. apply in_or_app; auto.
        - destruct e as ((k, n), v). destruct (last_at_exists kcmp TK _ _ _ _ He) as (v' & Hv).
          exists ((k, n), v'). split; auto. unfold content. apply in_or_app. right. apply M.
          rewrite (last_at_above kcmp). unfold ever in Hge; simpl in Hge. apply N.leb_le in Hge. rewrite Hge. auto. }
      assert (Hm1 : forall e, In e (survivors (w_log w)) -> ever e < last_version (t_blocks t ++ [b])).
      { intros e He. destruct (Hin e He) as (e' & A1 & <-). apply (last_version_gt _ B1). apply Hbs; auto. }
      assert (Hcmd : last_version (t_blocks t ++ [b]) <= last_cmd m (w_log w)).
      { destruct (last_version_attained B1) as (e & He & ->); [destruct (t_blocks t); discriminate|].
        apply Hbs in He. unfold content in He. apply in_app_or in He. destruct He as [He|He].
        - apply (last_version_gt _ (lo_blocks L)) in He. fold m in He. pose proof (i_m _ _ _ I). fold m in H. lia.
        - destruct e as ((k, n), v). apply M in He. apply (last_at_In kcmp TK) in He. apply filter_In in He. destruct He as (He & _).
          apply (i_log _ _ _ I) in He. fold m in He. lia. }
      assert (Hm2 : m < last_version (t_blocks t ++ [b])).
      { rewrite last_version_app. destruct (bo_max Hb) as (e & He & <-). pose proof (inv_mem_ver _ _ _ I He). fold m in H. lia. }
      assert (Hcmd2 : last_cmd (last_version (t_blocks t ++ [b])) (w_log w) = last_cmd m (w_log w)).
      { destruct (last_cmd_indep (w_log w)) as [Hx|(c & Hx)]; [|rewrite !Hx; auto]. rewrite Hx in Hcmd. lia. }
      assert (F1 : files_ok (put_file b (w_files w)) (t_blocks t ++ [b]) (t_next_id t + 1)).
      { apply files_put_fresh; auto. }
      assert (L1 : lookup_ok t1).
      { split; simpl; auto; try constructor; try (intros; simpl in *; tauto); try constructor. }
      assert (I1 : inv t1 (mk_world (put_file b (w_files w)) (w_log w) [])).
      { split; simpl.
        - split; simpl; auto; rewrite ?app_nil_r; auto.
          + intros k n v. split; [intros []|]. intros H. apply (last_at_In kcmp TK) in H. apply filter_In in H. destruct H as (H & H2).
            apply Hm1 in H. apply N.leb_le in H2. lia.
          + intros e He _. destruct (Hin e He) as (e' & A1 & A2). exists e'. rewrite Hbs. auto.
        - constructor.
        - rewrite Hcmd2. apply (i_log _ _ _ I).
        - rewrite Hcmd2. auto.
        - rewrite Hcmd2. apply (i_cur _ _ _ I).
        - apply (i_curu _ _ _ I). }
      assert (I2 : inv t1 (mk_world (put_file b (w_files w)) [] [])).
      { apply inv_nolog; auto; [|apply (i_curu _ _ _ I)]. pose proof (i_cur _ _ _ I). fold m in H. simpl. lia. }
      assert (S1 : same t t1).
      { split; auto. intros e. unfold t1. unfold content at 1. simpl. rewrite app_nil_r. apply Hbs. }
      destruct (t_rewrite_steps lf t1 _ I2) as (t2 & es & E & I3 & S3 & _ & St). fold b t1. rewrite E.
      eexists; eexists. split; [reflexivity|]. split; [exact I3|]. split; [eapply same_trans; eauto|].
      intros [|[|j]]; simpl.
      + exists t. split; auto. apply same_refl.
      + exists t1. split; auto. rewrite Hp. auto.
      + destruct (St j) as (tj & Ij & Sj). exists tj. split; [exact Ij|]. eapply same_trans; eauto.
  Qed.

  (** ** Commit *)
  Lemma commit_inv t w n : inv t w -> t_cur t < n -> n < u32max ->
    inv (mk_table n (t_last_flush t) (t_next_id t) (t_blocks t) (t_mem t) (t_idx t))
        (mk_world (w_files w) (w_log w ++ w_pend w ++ [LCommit n]) []).
  Proof.
    intros I H1 H2. destruct (i_w _ _ _ I) as [L F M O U].
    assert (Hs : survivors (w_log w ++ w_pend w ++ [LCommit n]) = survivors (w_log w ++ w_pend w)).
    { rewrite app_assoc, survivors_app. auto. }
    assert (Hc : forall x, last_cmd x (w_log w ++ w_pend w ++ [LCommit n]) = n).
    { intros x. rewrite app_assoc, last_cmd_app. auto. }
    pose proof (i_cur _ _ _ I) as A1. pose proof (i_m _ _ _ I) as A2.
    split; simpl; rewrite ?Hc; try lia; auto.
    - split; simpl; rewrite ?app_nil_r, ?Hs; auto. split; apply L.
    - rewrite Hs. intros e He. destruct (survivors_pend (w_log w) _ _ (i_pend _ _ _ I)) as (l & El & Hl). rewrite El in He.
      apply in_app_or in He. destruct He as [He|He]; [apply (i_log _ _ _ I) in He; lia|apply Hl in He; lia].
  Qed.

  Definition op_ok (o : @op K V) : Prop :=
    match o with OFlush => False | OCommit n _ => n <= u32max | _ => True end.

  Lemma firstn_snoc_cases {A} (l : list A) x j : firstn j (l ++ [x]) = firstn j l \/ firstn j (l ++ [x]) = l ++ [x].
  Proof.
    destruct (le_lt_dec j (length l)) as [H|H].
    - left. rewrite firstn_app. replace (j - length l)%nat with 0%nat by lia. simpl. apply app_nil_r.
    - right. apply firstn_all2. rewrite app_length. simpl. lia.
  Qed.

  Lemma op_ok_steps lf o t w : inv t w -> op_ok o ->
    match step kcmp lf o t with
    | None => True
    | Some (t', es) =>
      inv t' (apply_effs w es) /\
      (forall m n, good_disk t (crash_disk (apply_effs w (firstn m es)) n) \/ good_disk t' (crash_disk (apply_effs w (firstn m es)) n))
    end.
  Proof.
    intros I Ho. destruct o as [k v|n fl|n|]; simpl; [| | |destruct Ho].
    - pose proof (insert_inv t w k v I) as I'. split; [exact I'|]. intros [|m] n.
      + left. apply inv_good; auto.
      + right. simpl. rewrite firstn_nil. apply inv_good. exact I'.
    - unfold t_commit. simpl in Ho. destruct (n =? u32max) eqn:E1; simpl; auto. destruct (n <=? t_cur t) eqn:E2; auto.
      apply N.eqb_neq in E1. apply N.leb_gt in E2.
      pose proof (commit_inv t w n I E2 ltac:(lia)) as I1.
      set (t1 := mk_table n _ _ _ _ _) in *. set (w1 := mk_world (w_files w) (w_log w ++ w_pend w ++ [LCommit n]) []) in *.
      assert (Hpre : forall j, good_disk t (crash_disk (apply_effs w [EAppend (LCommit n)]) j) \/ good_disk t1 (crash_disk (apply_effs w [EAppend (LCommit n)]) j)).
      { intros j. unfold crash_disk. simpl. destruct (firstn_snoc_cases (w_pend w) (LCommit n) j) as [->| ->].
        - left. apply (inv_good t w j); auto.
        - right. pose proof (inv_good _ _ 0 I1) as G. unfold crash_disk, w1 in G. simpl in G. rewrite app_nil_r in G. exact G. }
      assert (Hmem : forall e, In e (t_mem t1) -> ever e < t_cur t1).
      { intros e He. pose proof (inv_mem_ver _ _ e I He). simpl. lia. }
      destruct fl.
      + destruct (flush_steps lf t1 w1 I1 eq_refl Hmem) as (t2 & es & E & I2 & S2 & St). rewrite E.
        assert (Hw : forall l, apply_effs w (EAppend (LCommit n) :: EFlush :: l) = apply_effs w1 l) by reflexivity.
        split; [exact I2|]. intros [|[|m]] j.
        * left. apply inv_good; auto.
        * destruct (Hpre j) as [G|G]; [left; exact G|right]. revert G. apply good_same.
          destruct S2 as (A & B). split; auto. intros e. rewrite A. tauto.
        * right. cbn [firstn app]. rewrite Hw. destruct (St m) as (tj & Ij & Sj).
          apply (good_same _ tj); [|apply inv_good; auto].
          destruct S2 as (A & B), Sj as (C & D). split; [|congruence]. intros e. rewrite A, C. tauto.
      + split; [exact I1|]. intros [|[|m]] j.
        * left. apply inv_good; auto.
        * apply Hpre.
        * right. simpl. rewrite firstn_nil. apply inv_good. exact I1.
    - destruct (t_cur t <? n) eqn:E1.
      + unfold t_revert. rewrite E1. auto.
      + apply N.ltb_ge in E1. pose proof (i_curu _ _ _ I).
        destruct (revert_all kcmp TK t w n (i_w _ _ _ I) E1 ltac:(lia)) as (t' & es & E & Ec & Hcon & I' & (e2 & Ees) & St).
        rewrite E. split; auto.
        assert (Gpost : forall d, disk_ok (fst d) (snd d) (csub t n) n -> good_disk t' d).
        { intros d D. exists n. rewrite Ec. split; [lia|]. revert D. apply disk_ok_ext.
          intros k v' v. unfold csub. rewrite Hcon. unfold ever; simpl. tauto. }
        intros [|[|m]] j.
        * left. apply inv_good; auto.
        * rewrite Ees. cbn [firstn]. unfold crash_disk. simpl. destruct (firstn_snoc_cases (w_pend w) (LRevert n) j) as [->| ->].
          { left. apply (inv_good t w j); auto. }
          { right. apply Gpost. destruct (St 0%nat) as (D & Hp). rewrite Ees in D. simpl in D. simpl. exact D. }
        * right. destruct (St m) as (D & Hp). apply Gpost. unfold crash_disk. rewrite Hp, firstn_nil, app_nil_r. exact D.
  Qed.

  (** ** Opening *)
  Lemma insert_block_perm (b : block) bs : Permutation (insert_block b bs) (b :: bs).
  Proof.
    induction bs as [|c bs IH]; simpl; auto. destruct (block_le b c); auto. rewrite IH. apply perm_swap.
  Qed.
  Lemma sort_blocks_perm (bs : list block) : Permutation (sort_blocks bs) bs.
  Proof. induction bs as [|b bs IH]; simpl; auto. rewrite insert_block_perm, IH. auto. Qed.
  Definition bmle (a b : block) := b_min a <= b_min b.
  Lemma insert_block_sorted (b : block) bs : StronglySorted bmle bs -> StronglySorted bmle (insert_block b bs).
  Proof.
    induction bs as [|c bs IH]; intros S; simpl; [repeat constructor|].
    inversion S as [|? ? S1 F]; subst. unfold block_le. destruct (b_min b =? b_min c) eqn:E.
    - apply N.eqb_eq in E. destruct (b_level c <=? b_level b).
      + constructor; auto. constructor; [unfold bmle; lia|]. eapply Forall_impl; [|exact F]. unfold bmle. intros; lia.
      + constructor; auto. rewrite Forall_forall in *. intros x Hx. apply (Permutation_in _ (insert_block_perm b bs)) in Hx.
        destruct Hx as [<-|Hx]; [unfold bmle; lia|auto].
    - destruct (N.ltb_spec (b_min b) (b_min c)).
      + constructor; auto. constructor; [unfold bmle; lia|]. eapply Forall_impl; [|exact F]. unfold bmle. intros; lia.
      + constructor; auto. rewrite Forall_forall in *. intros x Hx. apply (Permutation_in _ (insert_block_perm b bs)) in Hx.
        destruct Hx as [<-|Hx]; [unfold bmle; lia|auto].
  Qed.
  Lemma sort_blocks_sorted (bs : list block) : StronglySorted bmle (sort_blocks bs).
  Proof. induction bs; simpl; [constructor|]. apply insert_block_sorted; auto. Qed.

  Lemma sorted_perm_eq (l1 l2 : list block) : Permutation l1 l2 -> StronglySorted bmle l1 ->
    StronglySorted (fun a b => b_min a < b_min b) l2 -> l1 = l2.
  Proof.
    revert l1. induction l2 as [|b l2 IH]; intros l1 P S1 S2.
    - apply Permutation_nil. symmetry; auto.
    - destruct l1 as [|a l1]; [apply Permutation_nil in P; discriminate|].
      inversion S1 as [|? ? S1' F1]; subst. inversion S2 as [|? ? S2' F2]; subst.
      assert (a = b).
      { assert (Ha : In a (b :: l2)) by (eapply Permutation_in; [exact P|left; auto]).
        assert (Hb : In b (a :: l1)) by (eapply Permutation_in; [symmetry; exact P|left; auto]).
        destruct Ha as [->|Ha]; auto. destruct Hb as [->|Hb]; auto. rewrite Forall_forall in *.
        apply F1 in Hb. apply F2 in Ha. unfold bmle in Hb. lia. }
      subst. f_equal. apply IH; auto. eapply Permutation_cons_inv; eauto.
  Qed.

  Lemma blocks_min_sorted (bs : list block) : blocks_ok bs -> StronglySorted (fun a b => b_min a < b_min b) bs.
  Proof.
    intros (F & S). induction S as [|b bs S IH H]; constructor.
    - apply IH. inversion F; auto.
    - inversion F as [|? ? Hb Fb]; subst. eapply Forall_impl; [|exact H]. intros c Hc. unfold blt in Hc.
      destruct (bo_min Hb) as (e & He & <-). apply (bo_range Hb) in He. lia.
  Qed.
  Lemma sort_blocks_eq (fs bs : list block) : Permutation fs bs -> blocks_ok bs -> sort_blocks fs = bs.
  Proof.
    intros P B. apply sorted_perm_eq; [rewrite sort_blocks_perm; auto|apply sort_blocks_sorted|apply blocks_min_sorted; auto].
  Qed.

  Lemma load_blocks_ok (bs : list block) : forall prev, blocks_ok bs ->
    (match prev with Some pm => forall b, In b bs -> pm < b_min b | None => True end) -> load_blocks prev bs = (bs, []).
  Proof.
    induction bs as [|b bs IH]; intros prev B H; simpl; auto.
    assert (E : load_blocks (Some (b_max b)) bs = (bs, [])).
    { apply IH; [exact (proj1 (proj2 (blocks_ok_app [b] bs B)))|].
      destruct B as (_ & S). inversion S as [|? ? _ F]; subst. rewrite Forall_forall in F. intros c Hc. apply F; auto. }
    rewrite E. destruct prev as [pm|]; auto. specialize (H b (or_introl eq_refl)). apply N.ltb_lt in H. rewrite H. auto.
  Qed.

  Lemma sort_ver_last_at (es : list entry) k n : last_at (sort_ver es) k n = last_at es k n.
  Proof.
    assert (G : forall es acc, fold_left (fun acc (w : entry) => if keqb (ekey w) k && (ever w =? n) then Some (evl w) else acc) (sort_ver es) acc =
       fold_left (fun acc (w : entry) => if keqb (ekey w) k && (ever w =? n) then Some (evl w) else acc) es acc).
    { clear es. induction es as [|e es IH]; intros acc; simpl; auto. rewrite <- IH. clear IH.
      revert acc. generalize (sort_ver es) as l. induction l as [|x l IH]; intros acc; simpl; auto.
      destruct (N.leb_spec (ever e) (ever x)); simpl; auto.
      rewrite IH. f_equal. destruct (keqb (ekey e) k), (keqb (ekey x) k); simpl; auto;
      destruct (N.eqb_spec (ever e) n), (N.eqb_spec (ever x) n); auto; lia. }
    apply G.
  Qed.
  Definition vle (a b : entry) := ever a <= ever b.
  Lemma insert_ver_perm (e : entry) es : Permutation (insert_ver e es) (e :: es).
  Proof. induction es as [|x es IH]; simpl; auto. destruct (ever e <=? ever x); auto. rewrite IH. apply perm_swap. Qed.
  Lemma sort_ver_perm (es : list entry) : Permutation (sort_ver es) es.
  Proof. induction es as [|e es IH]; simpl; auto. rewrite insert_ver_perm, IH. auto. Qed.
  Lemma sort_ver_sorted (es : list entry) : StronglySorted vle (sort_ver es).
  Proof.
    induction es as [|e es IH]; simpl; [constructor|]. induction IH as [|x l S IH F]; simpl; [repeat constructor|].
    destruct (N.leb_spec (ever e) (ever x)).
    - constructor; [constructor; auto|]. constructor; auto. eapply Forall_impl; [|exact F]. unfold vle. intros; lia.
    - constructor; auto. rewrite Forall_forall in *. intros y Hy. apply (Permutation_in _ (insert_ver_perm e l)) in Hy.
      destruct Hy as [<-|Hy]; [unfold vle; lia|auto].
  Qed.

  Notation ins := (fun t e => insert_entry kcmp (ever e) (ekey e) (evl e) t).
  Lemma replay_mem es : forall t es0, lookup_ok t -> reduces es0 (t_mem t) -> StronglySorted vle es ->
    (forall e, In e es -> ever e < u32max) -> (forall e e', In e (t_mem t) -> In e' es -> ever e <= ever e') ->
    (forall b e, In b (t_blocks t) -> In e es -> b_max b < ever e) ->
    let t' := fold_left ins es t in
    lookup_ok t' /\ reduces (es0 ++ es) (t_mem t') /\ t_blocks t' = t_blocks t /\ t_cur t' = t_cur t /\ t_next_id t' = t_next_id t.
  Proof.
    induction es as [|e es IH]; intros t es0 L R S U Hm Hb; simpl.
    - rewrite app_nil_r. auto.
    - inversion S as [|? ? S1 F]; subst. rewrite Forall_forall in F.
      assert (L1 : lookup_ok (ins t e)).
      { apply (insert_entry_ok TK); auto; [apply U; left; auto| |].
        - intros x Hx. apply Hm; [auto|left; auto].
        - intros b Hx. apply Hb; [auto|left; auto]. }
      assert (R1 : reduces (es0 ++ [e]) (t_mem (ins t e))).
      { destruct e as ((k, n), v). intros k' n' v'. simpl. rewrite (aset_In TV); [|apply (lo_mem L)].
        rewrite (R k' n' v'). snoc. unfold ekey, ever, evl; simpl.
        destruct (keqb k k' && (n =? n')) eqn:E.
        - apply andb_true_iff in E. destruct E as (E1 & E2). apply (keqb_eq TK) in E1. apply N.eqb_eq in E2. subst.
          intuition congruence.
        - assert ((k', n') <> (k, n)). { intros [= -> ->]. rewrite (keqb_refl TK), N.eqb_refl in E. discriminate. }
          intuition congruence. }
      destruct (IH (ins t e) (es0 ++ [e])) as (A1 & A2 & A3 & A4 & A5); auto.
      + intros x Hx. apply U. right; auto.
      + intros x x' Hx Hx'. simpl in Hx. destruct x as (xk, xv). apply (aset_In TV) in Hx; [|apply (lo_mem L)].
        destruct Hx as [(-> & ->)|(_ & Hx)].
        * apply F in Hx'. unfold vle in Hx'. exact Hx'.
        * apply (Hm (xk, xv)); auto. right; auto.
      + intros b x Hx Hx'. apply Hb; auto. right; auto.
      + rewrite <- app_assoc in A2. auto.
  Qed.

  Lemma next_id_spec (fs : list block) : forall a, (forall b, In b fs -> b_id b < fold_left (fun m b => N.max m (b_id b + 1)) fs a) /\
    a <= fold_left (fun m b => N.max m (b_id b + 1)) fs a.
  Proof.
    induction fs as [|c fs IH]; intros a; simpl; [split; [intros b []|lia]|].
    destruct (IH (N.max a (b_id c + 1))) as (A & B). split; [|lia]. intros b [->|Hb]; [lia|auto].
  Qed.

  Lemma open_ok lf files log C rc : disk_ok files log C rc ->
    exists t es, t_open kcmp lf files log = Some (t, es) /\ inv t (apply_effs (mk_world files log []) es) /\
      t_cur t = rc /\ (forall k n v, In ((k, n), v) (content t) <-> C k n v) /\
      (forall m n, exists rc', rc' <= rc /\
         disk_ok (fst (crash_disk (apply_effs (mk_world files log []) (firstn m es)) n))
                 (snd (crash_disk (apply_effs (mk_world files log []) (firstn m es)) n)) C rc').
  Proof.
    intros D. pose proof D as D0. destruct D as (bs & B & P & ND & Hrc & O & U & Hu & HC).
    unfold t_open. rewrite (sort_blocks_eq _ _ P B), (load_blocks_ok _ None B I).
    set (m := last_version bs) in *.
    destruct (replay_spec m log) as (R1 & R2). rewrite R1, R2. rewrite <- Hrc.
    set (t0 := mk_table rc _ _ bs [] []).
    set (E := filter (above m) (survivors log)) in *.
    assert (L0 : lookup_ok t0).
    { unfold t0. split; simpl; auto; try constructor; try (intros; simpl in *; tauto); try constructor. }
    assert (HE : forall e, In e (sort_ver E) -> In e (survivors log) /\ m <= ever e).
    { intros e He. apply (Permutation_in _ (sort_ver_perm E)) in He. unfold E in He. apply filter_In in He.
      destruct He as (He & H2). apply N.leb_le in H2. auto. }
    destruct (replay_mem (sort_ver E) t0 []) as (L1 & Rd & Eb & Ecur & Enext); auto.
    { intros k n v. split; [intros []|discriminate]. }
    { apply sort_ver_sorted. }
    { intros e He. apply HE in He. apply U. tauto. }
    { intros e e' []. }
    { intros b e Hb He. apply HE in He. unfold t0 in Hb; simpl in Hb.
      destruct B as (Fb & Sb). rewrite Forall_forall in Fb. destruct (bo_max (Fb _ Hb)) as (x & Hx & <-).
      assert (ever x < m). { apply (@last_version_gt K V kcmp); [split; [apply Forall_forall|]; auto|]. apply in_flat_map. eauto. }
      lia. }
    set (t1 := fold_left _ (sort_ver E) t0) in *.
    assert (W1 : winv t1 (mk_world files log [])).
    { split; simpl; rewrite ?app_nil_r, ?Eb; unfold t0; simpl; auto.
      - rewrite Enext. unfold t0; simpl. split; auto. intros b Hb.
        apply (proj1 (next_id_spec files 0)). eapply Permutation_in; [symmetry; exact P|auto].
      - intros k n v. rewrite (Rd k n v). simpl. rewrite sort_ver_last_at. reflexivity. }
    assert (Hc1 : t_cur t1 = rc) by (rewrite Ecur; auto).
    destruct (revert_all kcmp TK t1 _ rc W1 ltac:(lia) Hu) as (t2 & e2 & Er & Ec2 & Hcon & I2 & (e2' & Ee2) & St).
    rewrite Er. destruct (t_rewrite_steps lf t2 _ I2) as (t3 & e3 & Ew & I3 & S3 & _ & St3). rewrite Ew.
    exists t3, (e2 ++ e3). split; auto. rewrite apply_effs_app. split; auto.
    assert (HC2 : forall k n v, In ((k, n), v) (content t2) <-> C k n v).
    { intros k n v. rewrite Hcon, HC. unfold content. rewrite in_app_iff, Eb. unfold t0; simpl.
      rewrite (Rd k n v). simpl. rewrite sort_ver_last_at. unfold ever; simpl. tauto. }
    assert (Hcs : forall k n v, csub t1 rc k n v <-> C k n v).
    { intros k n v. rewrite <- HC2, Hcon. unfold csub, ever; simpl. tauto. }
    destruct S3 as (S3 & S3c). split; [congruence|]. split; [intros; rewrite S3; auto|].
    intros j n. rewrite firstn_app, apply_effs_app. destruct j as [|[|j]].
    - rewrite Ee2. simpl. rewrite firstn_nil, app_nil_r. exists rc. split; [lia|auto].
    - rewrite Ee2. simpl. destruct n as [|n].
      + simpl. rewrite app_nil_r. exists rc. split; [lia|auto].
      + simpl. rewrite firstn_nil. exists rc. split; [lia|]. destruct (St 0%nat) as (Dx & _). rewrite Ee2 in Dx. simpl in Dx.
        revert Dx. apply disk_ok_ext; auto.
    - set (j2 := (S (S j) - length e2)%nat). destruct (le_lt_dec (length e2) (S (S j))) as [Hle|Hgt].
      + rewrite (firstn_all2 e2); auto. destruct (St3 j2) as (tj & Ij & (Sj & Sjc)).
        destruct (inv_disk kcmp TK tj _ n Ij) as (rc' & Hr & Dx & _). exists rc'. rewrite Sjc, Ec2 in *. split; auto.
        unfold crash_disk. simpl. revert Dx. apply disk_ok_ext. intros k n' v. unfold csub. rewrite Sj, HC2, HC. tauto.
      + unfold j2. replace (S (S j) - length e2)%nat with 0%nat by lia. change (firstn 0 e3) with (@nil eff). match goal with |- context [apply_effs ?x []] => change (apply_effs x []) with x end.
        destruct (St j) as (Dx & Hp). exists rc. split; [lia|]. unfold crash_disk. rewrite Hp, firstn_nil, app_nil_r. simpl fst. simpl snd.
        revert Dx. apply disk_ok_ext; auto.
  Qed.

  Lemma reopen_ok lf opens : forall d C rc, disk_ok (fst d) (snd d) C rc ->
    exists s : @sys K V, reopen kcmp lf d opens = Some s /\ inv (s_tab s) (s_world s) /\ t_cur (s_tab s) <= rc /\
      (forall k n v, In ((k, n), v) (content (s_tab s)) <-> C k n v) /\
      (forall k n v, In ((k, n), v) (content (s_tab s)) -> n < t_cur (s_tab s)).
  Proof.
    induction opens as [|(m, n) opens IH]; intros (fs, log) C rc D; simpl in D.
    - destruct (open_ok lf _ _ _ _ D) as (t & es & E & I & Ec & HC & _). simpl. unfold open_sys. simpl. rewrite E.
      eexists. split; [reflexivity|]. simpl. split; auto. split; [lia|]. split; auto.
      intros k n v H. apply HC in H. destruct D as (bs & D). apply D in H. lia.
    - destruct (open_ok lf _ _ _ _ D) as (t & es & E & I & Ec & HC & St). simpl. rewrite E.
      destruct (St m n) as (rc' & Hr & D'). destruct (IH _ _ _ D') as (s & A1 & A2 & A3 & A4 & A5).
      exists s. split; auto. split; auto. split; [lia|]. auto.
  Qed.

  (** ** The specification *)
  Notation spec := (@spec K V).
  Record rel (s : @sys K V) (a : spec) : Prop := {
    rl_inv : inv (s_tab s) (s_world s);
    rl_cur : t_cur (s_tab s) = a_cur a;
    rl_con : forall k n v, In ((k, n), v) (content (s_tab s)) <-> last_at (a_writes a) k n = Some v;
    rl_sorted : StronglySorted vle (a_writes a);
    rl_le : forall w : entry, In w (a_writes a) -> ever w <= a_cur a
  }.

  Lemma a_find_newest (ws : list entry) k mv : StronglySorted vle ws ->
    match fold_left (fun acc (w : entry) => if keqb (wkey w) k && (wver w <=? mv) then Some (wval w) else acc) ws None with
    | Some v => exists n, last_at ws k n = Some v /\ n <= mv /\ (forall n' v', last_at ws k n' = Some v' -> n' <= mv -> n' <= n)
    | None => forall n v, last_at ws k n = Some v -> mv < n
    end.
  Proof.
    induction ws as [|((k0, n0), v0) ws IH] using rev_ind; intros S; [simpl; intros; discriminate|].
    assert (S1 : StronglySorted vle ws /\ forall w : entry, In w ws -> ever w <= n0).
    { clear IH. induction ws as [|x ws IHs]; simpl in *; [split; [constructor|intros ? []]|].
      inversion S as [|? ? S' F]; subst. destruct (IHs S') as (A & B). rewrite Forall_forall in F. split.
      - constructor; auto. apply Forall_forall. intros y Hy. apply F. apply in_or_app; auto.
      - intros w [<-|Hw]; auto. apply (F ((k0, n0), v0)). apply in_or_app. right; left; auto. }
    destruct S1 as (S1 & Hle). specialize (IH S1). rewrite fold_left_app. simpl. unfold wkey at 1, wver at 1, wval at 1. simpl.
    set (r := fold_left _ ws None) in *.
    destruct (keqb k0 k) eqn:Ek; simpl.
    - apply (keqb_eq TK) in Ek. subst k0. destruct (N.leb_spec n0 mv).
      + exists n0. snoc; rewrite (keqb_refl TK), N.eqb_refl. simpl. split; auto. split; auto.
        intros n' v' Hn' _. snoc_in Hn'; rewrite (keqb_refl TK) in Hn'. simpl in Hn'.
        destruct (N.eqb_spec n0 n'); [lia|]. apply (last_at_In kcmp TK) in Hn'. apply Hle in Hn'. exact Hn'.
      + destruct r as [v|].
        * destruct IH as (n & A & B & D). exists n. snoc; rewrite (keqb_refl TK). simpl.
          destruct (N.eqb_spec n0 n); [lia|]. split; auto. split; auto. intros n' v' Hn' Hmv.
          snoc_in Hn'; rewrite (keqb_refl TK) in Hn'. simpl in Hn'. destruct (N.eqb_spec n0 n'); [lia|]. eauto.
        * intros n v Hn. snoc_in Hn; rewrite (keqb_refl TK) in Hn. simpl in Hn. destruct (N.eqb_spec n0 n); [lia|]. eauto.
    - destruct r as [v|].
      + destruct IH as (n & A & B & D). exists n. snoc; rewrite Ek. simpl. split; auto. split; auto.
        intros n' v' Hn' Hmv. snoc_in Hn'; rewrite Ek in Hn'. simpl in Hn'. eauto.
      + intros n v Hn. snoc_in Hn; rewrite Ek in Hn. simpl in Hn. eauto.
  Qed.

  Lemma rel_find s a k mv : rel s a -> find kcmp (s_tab s) k mv = a_find keqb a k mv.
  Proof.
    intros R. pose proof (wi_look _ _ _ (i_w _ _ _ (rl_inv _ _ R))) as L.
    eapply newest_fun; [| |].
    - intros n v1 v2 H1 H2. eapply (content_fun TK); eauto.
    - apply (find_newest TK). auto.
    - unfold a_find. pose proof (a_find_newest (a_writes a) k mv (rl_sorted _ _ R)) as H.
      match type of H with match ?x with _ => _ end => match goal with |- newest _ _ _ ?y => change y with x; destruct x as [v|]; hnf end end.
      + destruct H as (n & A & B & C). exists n. split; [apply (rl_con _ _ R); auto|]. split; auto.
        intros n' v' H. apply (rl_con _ _ R) in H. eauto.
      + intros n v Hn. apply (rl_con _ _ R) in Hn. eauto.
  Qed.

  Lemma filter_sorted_vle f (ws : list entry) : StronglySorted vle ws -> StronglySorted vle (filter f ws).
  Proof.
    induction 1 as [|x l S IH F]; simpl; [constructor|]. destruct (f x); auto. constructor; auto.
    rewrite Forall_forall in *. intros y Hy. apply filter_In in Hy. apply F. tauto.
  Qed.

  Lemma rel_op lf s a o : rel s a -> op_ok o -> exists s', sys_step kcmp lf s (EvOp o) = Some s' /\ rel s' (spec_op o a).
  Proof.
    intros R Ho. pose proof (op_ok_steps lf o _ _ (rl_inv _ _ R) Ho) as H. simpl.
    destruct o as [k v|n fl|n|]; [| | |destruct Ho].
    - simpl in H |- *. destruct H as (I & _). eexists. split; [reflexivity|]. split; simpl; auto.
      + apply (rl_cur _ _ R).
      + intros k' n' v'. rewrite (insert_content _ _ _ _ _ _ _ (rl_inv _ _ R)). snoc. rewrite (rl_cur _ _ R).
        destruct (keqb k k' && (a_cur a =? n')); [|apply (rl_con _ _ R)]. split; congruence.
      + pose proof (rl_le _ _ R) as Hle. pose proof (rl_sorted _ _ R) as S. revert S Hle. generalize (a_cur a) as c. intros c S Hle.
        induction S as [|x l S IH F]; simpl; [repeat constructor|]. constructor; [apply IH; intros; apply Hle; right; auto|].
        apply Forall_app. split; auto. constructor; auto. unfold vle. apply Hle. left; auto.
      + intros w Hw. apply in_app_or in Hw. destruct Hw as [Hw|[<-|[]]]; [apply (rl_le _ _ R); auto|]. unfold ever; simpl. lia.
    - simpl in H |- *. unfold a_commit. change 4294967295 with u32max. rewrite <- (rl_cur _ _ R).
      unfold t_commit in *. destruct ((n =? u32max) || (n <=? t_cur (s_tab s))) eqn:E; [eauto|].
      apply orb_false_iff in E. destruct E as (E1 & E2). apply N.eqb_neq in E1. apply N.leb_gt in E2.
      assert (G : forall t' es, inv t' (apply_effs (s_world s) es) -> (forall e, In e (content t') <-> In e (content (s_tab s))) -> t_cur t' = n ->
         rel (mk_sys t' (apply_effs (s_world s) es)) (mk_spec n (a_writes a))).
      { intros t' es I' Hc Hn. split; simpl; auto.
        - intros. rewrite Hc. apply (rl_con _ _ R).
        - apply (rl_sorted _ _ R).
        - intros w Hw. apply (rl_le _ _ R) in Hw. rewrite <- (rl_cur _ _ R) in Hw. lia. }
      destruct fl.
      + pose proof (commit_inv _ _ n (rl_inv _ _ R) E2 ltac:(simpl in Ho; lia)) as I1.
        set (t1 := mk_table n _ _ _ _ _) in *. set (w1 := mk_world _ (w_log (s_world s) ++ _) []) in *.
        destruct (flush_steps lf t1 w1 I1 eq_refl) as (t2 & es & E & I2 & (S2 & S2c) & _).
        { intros e He. pose proof (inv_mem_ver _ _ e (rl_inv _ _ R) He). simpl. lia. }
        rewrite E in *. eexists. split; [reflexivity|]. apply G; [apply H| |auto]. intros e. rewrite S2. reflexivity.
      + eexists. split; [reflexivity|]. apply G; [apply H| |reflexivity]. intros; reflexivity.
    - simpl in H |- *. unfold a_revert. rewrite <- (rl_cur _ _ R).
      destruct (t_cur (s_tab s) <? n) eqn:E; [unfold t_revert; rewrite E; eauto|].
      apply N.ltb_ge in E. pose proof (i_curu _ _ _ (rl_inv _ _ R)).
      destruct (revert_all kcmp TK _ _ n (i_w _ _ _ (rl_inv _ _ R)) E ltac:(lia)) as (t' & es & Er & Ec & Hcon & I' & _).
      rewrite Er. eexists. split; [reflexivity|]. split; simpl; auto.
      + intros k n' v. rewrite Hcon, (rl_con _ _ R). unfold drop_from. change (fun w : write => wver w <? n) with (@below K V n).
        rewrite (last_at_below kcmp). unfold ever; simpl. destruct (N.ltb_spec n' n); intuition (try congruence; try lia).
      + apply filter_sorted_vle. apply (rl_sorted _ _ R).
      + intros w Hw. apply filter_In in Hw. destruct Hw as (_ & Hw). apply N.ltb_lt in Hw. unfold wver in Hw. unfold ever. lia.
  Qed.

  Lemma rel_crash lf t d a opens : good_disk t d -> t_cur t = a_cur a ->
    (forall k n v, In ((k, n), v) (content t) <-> last_at (a_writes a) k n = Some v) -> StronglySorted vle (a_writes a) ->
    exists s' a', reopen kcmp lf d opens = Some s' /\ rel s' a' /\ a_survives a a'.
  Proof.
    intros (rc & Hr & D) Hc Hcon S. destruct (reopen_ok lf opens d _ _ D) as (s & A1 & A2 & A3 & A4 & A5).
    set (ws := drop_from (a_cur a) (a_writes a)).
    assert (Hl : forall k n v, In ((k, n), v) (content (s_tab s)) <-> last_at ws k n = Some v).
    { intros k n v. rewrite A4. unfold csub. rewrite Hcon, Hc. unfold ws, drop_from.
      change (fun w : write => wver w <? a_cur a) with (@below K V (a_cur a)). rewrite (last_at_below kcmp).
      destruct (N.ltb_spec n (a_cur a)); intuition (try congruence; try lia). }
    assert (Hlt : forall w : entry, In w ws -> ever w < t_cur (s_tab s)).
    { intros ((k, n), v) Hw. destruct (last_at_exists kcmp TK _ _ _ _ Hw) as (v' & Hv). apply Hl in Hv. apply A5 in Hv. exact Hv. }
    exists s, (mk_spec (t_cur (s_tab s)) ws). split; auto. split.
    - split; simpl; auto.
      + apply filter_sorted_vle; auto.
      + intros w Hw. apply Hlt in Hw. lia.
    - split; simpl; auto. split; [lia|]. apply Forall_forall. intros w Hw. apply Hlt in Hw. exact Hw.
  Qed.

  Definition event_ok (ev : @event K V) : Prop :=
    match ev with EvOp o => op_ok o | EvCrash (Some o) _ _ _ => op_ok o | EvCrash None _ _ _ => True end.

  Lemma rel_event lf s a ev : rel s a -> event_ok ev ->
    exists s' a', sys_step kcmp lf s ev = Some s' /\ rel s' a' /\ spec_event ev a a'.
  Proof.
    intros R Ho. destruct ev as [o|[o|] m n opens].
    - destruct (rel_op lf s a o R Ho) as (s' & A & B). exists s', (spec_op o a). split; auto. split; auto. reflexivity.
    - cbn [sys_step]. simpl in Ho. pose proof (op_ok_steps lf o _ _ (rl_inv _ _ R) Ho) as H.
      destruct (rel_op lf s a o R Ho) as (s1 & E1 & R1). cbn [sys_step] in E1. unfold op_effs.
      destruct (step kcmp lf o (s_tab s)) as [(t', es)|] eqn:Es.
      + injection E1 as <-. destruct H as (I & H). destruct (H m n) as [G|G].
        * destruct (rel_crash lf _ _ a opens G (rl_cur _ _ R) (rl_con _ _ R) (rl_sorted _ _ R)) as (s' & a' & A & B & C).
          exists s', a'. split; auto. split; auto. left. auto.
        * destruct (rel_crash lf _ _ (spec_op o a) opens G (rl_cur _ _ R1) (rl_con _ _ R1) (rl_sorted _ _ R1)) as (s' & a' & A & B & C).
          exists s', a'. split; auto. split; auto. right. auto.
      + rewrite firstn_nil. pose proof (inv_good _ _ n (rl_inv _ _ R)) as G.
        destruct (rel_crash lf _ _ a opens G (rl_cur _ _ R) (rl_con _ _ R) (rl_sorted _ _ R)) as (s' & a' & A & B & C).
        exists s', a'. split; auto. split; auto. left. auto.
    - cbn [sys_step op_effs]. rewrite firstn_nil. pose proof (inv_good _ _ n (rl_inv _ _ R)) as G.
      destruct (rel_crash lf _ _ a opens G (rl_cur _ _ R) (rl_con _ _ R) (rl_sorted _ _ R)) as (s' & a' & A & B & C).
      exists s', a'. split; auto.
  Qed.

  Lemma rel_init lf : exists s : @sys K V, init_sys kcmp lf = Some s /\ rel s (@a_init K V).
  Proof.
    assert (D : disk_ok ([] : list block) ([] : list logrec) (fun (_ : K) (_ : N) (_ : V) => False) 0).
    { exists []. split; [split; constructor|]. split; auto. split; [constructor|]. split; auto.
      split; [intros e []|]. split; [intros e []|]. split; [reflexivity|]. intros k n v. split; [intros []|]. intros (_ & [[]|H]). discriminate. }
    destruct (reopen_ok lf [] ([], []) _ _ D) as (s & A & B & C & E & _). exists s. split; auto. split; simpl; auto.
    - lia.
    - intros k n v. rewrite E. split; [intros []|discriminate].
    - constructor.
    - intros w [].
  Qed.

  Lemma rel_run lf evs : forall s a, rel s a -> Forall event_ok evs ->
    exists s' a', sys_run kcmp lf s evs = Some s' /\ rel s' a' /\ spec_run evs a a'.
  Proof.
    induction evs as [|ev evs IH]; intros s a R F; simpl.
    - exists s, a. split; auto.
    - inversion F as [|? ? F1 F2]; subst. destruct (rel_event lf s a ev R F1) as (s1 & a1 & E & R1 & S1). rewrite E.
      destruct (IH s1 a1 R1 F2) as (s' & a' & E' & R' & S'). exists s', a'. split; auto. split; auto. exists a1. auto.
  Qed.
End P.
