(** The part of C06 that holds: a merge of which all sources but one are deleted. *)
Require Import List Sorted Permutation NArith Lia Bool Arith.
Require Import Verif.OrdLib Verif.DbModel Verif.DbSpec Verif.DbBlockProofs Verif.DbOpsProofs Verif.DbCrashProofs Verif.DbRefineProofs Verif.DbPropsProofs.
Import ListNotations.
Open Scope N_scope.

Section P.
  Context {K V : Type} (kcmp : K -> K -> comparison).
  Hypothesis TK : TotalCmp kcmp.
  Notation entry := (@entry K V).
  Notation block := (@block K V).
  Notation table := (@table K V).
  Notation world := (@world K V).
  Notation eff := (@eff K V).
  Notation blocks_ok := (blocks_ok kcmp).
  Notation inv := (inv kcmp).

  (** ** Sorting with one leftover block *)
  Definition blk_lt (a b : block) : Prop := b_min a < b_min b \/ (b_min a = b_min b /\ b_level b < b_level a).
  Definition blk_le (a b : block) : Prop := b_min a < b_min b \/ (b_min a = b_min b /\ b_level b <= b_level a).

  Lemma insert_block_le (b : block) bs : StronglySorted blk_le bs -> StronglySorted blk_le (insert_block b bs).
  Proof.
    induction bs as [|c bs IH]; intros S; simpl; [repeat constructor|].
    inversion S as [|? ? S1 F]; subst.
    assert (D : block_le b c = true <-> blk_le b c).
    { unfold block_le, blk_le. destruct (N.eqb_spec (b_min b) (b_min c)); [rewrite N.leb_le|rewrite N.ltb_lt]; lia. }
    destruct (block_le b c) eqn:E.
    - assert (X : blk_le b c) by (apply D; auto). constructor; auto. constructor; auto.
      eapply Forall_impl; [|exact F]. unfold blk_le in *. intros; lia.
    - assert (X : blk_le c b).
      { assert (~ blk_le b c) by (intros H; apply D in H; discriminate). unfold blk_le in *. lia. }
      constructor; auto. rewrite Forall_forall in *. intros x Hx. apply (Permutation_in _ (insert_block_perm b bs)) in Hx.
      destruct Hx as [<-|Hx]; auto.
  Qed.
  Lemma sort_blocks_le (bs : list block) : StronglySorted blk_le (sort_blocks bs).
  Proof. induction bs; simpl; [constructor|]. apply insert_block_le; auto. Qed.

  Lemma sorted_lt_eq (l1 l2 : list block) : Permutation l1 l2 -> StronglySorted blk_le l1 -> StronglySorted blk_lt l2 -> l1 = l2.
  Proof.
    revert l1. induction l2 as [|b l2 IH]; intros l1 P S1 S2.
    - apply Permutation_nil. symmetry; auto.
    - destruct l1 as [|a l1]; [apply Permutation_nil in P; discriminate|].
      inversion S1 as [|? ? S1' F1]; subst. inversion S2 as [|? ? S2' F2]; subst.
      assert (a = b).
      { assert (Ha : In a (b :: l2)) by (eapply Permutation_in; [exact P|left; auto]).
        assert (Hb : In b (a :: l1)) by (eapply Permutation_in; [symmetry; exact P|left; auto]).
        destruct Ha as [->|Ha]; auto. destruct Hb as [->|Hb]; auto. rewrite Forall_forall in *.
        apply F1 in Hb. apply F2 in Ha. unfold blk_le, blk_lt in *. lia. }
      subst. f_equal. apply IH; auto. eapply Permutation_cons_inv; eauto.
  Qed.

  Lemma min_le_max (b : block) : block_ok kcmp b -> b_min b <= b_max b.
  Proof. intros B. destruct (bo_min B) as (e & He & <-). apply (bo_range B) in He. lia. Qed.

  Lemma StronglySorted_app {A} (R : A -> A -> Prop) l1 l2 : StronglySorted R l1 -> StronglySorted R l2 ->
    (forall x y, In x l1 -> In y l2 -> R x y) -> StronglySorted R (l1 ++ l2).
  Proof.
    induction 1 as [|a l S IH F]; intros S2 H; simpl; auto. constructor.
    - apply IH; auto. intros x y Hx. apply H. right; auto.
    - rewrite Forall_forall in *. intros y Hy. apply in_app_or in Hy. destruct Hy; auto. apply H; auto. left; auto.
  Qed.

  Lemma blocks_lt (bs : list block) : blocks_ok bs -> StronglySorted blk_lt bs.
  Proof.
    intros B. pose proof (blocks_min_sorted _ _ B) as S. clear B. induction S as [|a l S IH F]; constructor; auto.
    eapply Forall_impl; [|exact F]. unfold blk_lt. auto.
  Qed.

  (** [x]: the leftover source *)
  Record leftover (nb x : block) : Prop := {
    lv_ok : block_ok kcmp x;
    lv_min : b_min nb <= b_min x;
    lv_max : b_max x <= b_max nb;
    lv_level : b_level x < b_level nb;
    lv_id : b_id x < b_id nb
  }.

  Lemma leftover_sorted pre nb post x : blocks_ok (pre ++ nb :: post) -> leftover nb x -> StronglySorted blk_lt (pre ++ nb :: x :: post).
  Proof.
    intros B Lv. destruct (blocks_ok_app _ _ B) as (B1 & B2 & H12). destruct (blocks_ok_app [nb] post B2) as (_ & B3 & H3).
    pose proof (min_le_max _ (lv_ok _ _ Lv)) as Mx. pose proof (lv_min _ _ Lv). pose proof (lv_max _ _ Lv). pose proof (lv_level _ _ Lv).
    pose proof (blocks_lt _ B2) as S2. inversion S2 as [|? ? S3 F3]; subst. rewrite Forall_forall in F3.
    apply StronglySorted_app; [apply blocks_lt; auto| |].
    - constructor.
      + constructor; auto. apply Forall_forall. intros y Hy. left. specialize (H3 nb y (or_introl eq_refl) Hy). unfold blt in H3. lia.
      + constructor; [unfold blk_lt; lia|apply Forall_forall; auto].
    - intros a y Ha Hy. left. specialize (H12 a). destruct B1 as (F1 & _). rewrite Forall_forall in F1. pose proof (min_le_max _ (F1 a Ha)).
      destruct Hy as [<-|[<-|Hy]].
      + specialize (H12 nb Ha (or_introl eq_refl)). unfold blt in H12. lia.
      + specialize (H12 nb Ha (or_introl eq_refl)). unfold blt in H12. lia.
      + specialize (H12 y Ha (or_intror Hy)). unfold blt in H12. lia.
  Qed.

  Lemma leftover_load pre nb post x : forall prev, blocks_ok (pre ++ nb :: post) -> leftover nb x ->
    (match prev with Some pm => forall b, In b (pre ++ nb :: post) -> pm < b_min b | None => True end) ->
    load_blocks prev (pre ++ nb :: x :: post) = (pre ++ nb :: post, [ERemove (b_id x)]).
  Proof.
    induction pre as [|a pre IH]; intros prev B Lv H; simpl app in *.
    - pose proof (min_le_max _ (lv_ok _ _ Lv)) as Mx. pose proof (lv_min _ _ Lv). pose proof (lv_max _ _ Lv).
      destruct (blocks_ok_app [nb] post B) as (_ & B3 & H3).
      assert (E : load_blocks (Some (b_max x)) post = (post, [])).
      { apply (load_blocks_ok kcmp); auto. intros b Hb. specialize (H3 nb b (or_introl eq_refl) Hb). unfold blt in H3. lia. }
      cbn [load_blocks]. rewrite E.
      assert (E1 : b_max nb <? b_min x = false) by (apply N.ltb_ge; lia). rewrite E1.
      destruct prev as [pm|]; auto. specialize (H nb (or_introl eq_refl)). apply N.ltb_lt in H. rewrite H. auto.
    - cbn [load_blocks]. rewrite IH; auto.
      + destruct prev as [pm|]; auto. specialize (H a (or_introl eq_refl)). apply N.ltb_lt in H. rewrite H. auto.
      + exact (proj1 (proj2 (blocks_ok_app [a] _ B))).
      + intros b Hb. destruct B as (_ & S). inversion S as [|? ? _ F]; subst. rewrite Forall_forall in F. apply F; auto.
  Qed.

  Definition nextid (fs : list block) (a : N) : N := fold_left (fun m b => N.max m (b_id b + 1)) fs a.
  Lemma nextid_max fs a : nextid fs a = N.max a (nextid fs 0).
  Proof.
    unfold nextid. revert a. induction fs as [|b fs IH]; intros a; simpl; [lia|]. rewrite IH, (IH (N.max 0 (b_id b + 1))). lia.
  Qed.
  Lemma nextid_perm fs fs' : Permutation fs fs' -> forall a, nextid fs a = nextid fs' a.
  Proof.
    induction 1 as [|x l l' P IH|x y l|l1 l2 l3 P1 IH1 P2 IH2]; intros a; auto.
    - unfold nextid in *. simpl. apply IH.
    - unfold nextid. simpl. f_equal. lia.
    - rewrite IH1. apply IH2.
  Qed.

  Lemma leftover_open lf (F F' : list block) log pre nb post x :
    blocks_ok (pre ++ nb :: post) -> leftover nb x -> Permutation F (pre ++ nb :: post) -> Permutation F' (x :: F) ->
    t_open kcmp lf F' log = match t_open kcmp lf F log with Some (t, es) => Some (t, ERemove (b_id x) :: es) | None => None end.
  Proof.
    intros B Lv P P'. unfold t_open.
    rewrite (sort_blocks_eq kcmp _ _ P B), (load_blocks_ok kcmp _ None B Logic.I).
    assert (E : sort_blocks F' = pre ++ nb :: x :: post).
    { apply sorted_lt_eq; [|apply sort_blocks_le|apply leftover_sorted; auto].
      rewrite sort_blocks_perm, P', P. rewrite !(Permutation_middle pre). apply Permutation_app_head. apply perm_swap. }
    rewrite E, (leftover_load _ _ _ _ None B Lv Logic.I).
    assert (En : nextid F' 0 = nextid F 0).
    { rewrite (nextid_perm _ _ P'). change (nextid (x :: F) 0) with (nextid F (N.max 0 (b_id x + 1))). rewrite nextid_max.
      assert (Hn : b_id nb < nextid F 0).
      { apply (proj1 (next_id_spec F 0)). eapply Permutation_in; [symmetry; exact P|]. apply in_or_app. right. left. auto. }
      pose proof (lv_id _ _ Lv). lia. }
    unfold nextid in En. rewrite En.
    match goal with |- context [t_revert kcmp ?a ?b] => destruct (t_revert kcmp a b) as [(t2, e2)|] end; auto.
    destruct (t_check_rewrite kcmp lf t2) as [(t3, e3)|]; auto.
  Qed.

  (** ** The merges of a call *)
  Lemma select_level lf (pre sel : list block) level bs p s post l :
    select lf pre sel level bs = Some (p, s, post, l) -> (forall b, In b sel -> b_level b = level) -> forall b, In b s -> b_level b = l.
  Proof.
    revert pre sel level. induction bs as [|b bs IH]; simpl; intros pre sel level H Hs; [discriminate|].
    destruct (match sel with [] => true | _ => b_level b =? level end) eqn:E.
    - destruct (Nat.ltb lf (length (sel ++ [b]))).
      + injection H as <- <- <- <-. auto.
      + eapply IH; [exact H|]. intros c Hc. apply in_app_or in Hc. destruct Hc as [Hc|[<-|[]]]; auto.
        destruct sel as [|d sel]; [destruct Hc|]. apply N.eqb_eq in E. rewrite E. auto.
    - eapply IH; [exact H|]. intros c [<-|[]]. auto.
  Qed.

  Record merging (w : world) (nb : block) (ids : list N) (pre sel post : list block) : Prop := {
    mg_files : files_ok (w_files w) (pre ++ sel ++ post) (b_id nb);
    mg_blocks : blocks_ok (pre ++ sel ++ post);
    mg_after : blocks_ok (pre ++ nb :: post);
    mg_ids : ids = map (@b_id K V) sel;
    mg_level : forall b, In b sel -> b_level b < b_level nb;
    mg_nb : block_ok kcmp nb;
    mg_entries : Permutation (b_entries nb) (bentries sel)
  }.

  Lemma rewrite_merges lf fuel : forall bs next w bs' next' es es1 nb ids es2,
    blocks_ok bs -> files_ok (w_files w) bs next -> check_rewrite kcmp fuel lf next bs = Some (bs', next', es) ->
    es = es1 ++ EMerge nb ids :: es2 -> exists pre sel post, merging (apply_effs w es1) nb ids pre sel post.
  Proof.
    induction fuel as [|fuel IH]; intros bs next w bs' next' es es1 nb ids es2 B F E Ees; cbn [check_rewrite] in E.
    - destruct (Nat.leb lf 1); [injection E as <- <- <-; destruct es1; discriminate|].
      destruct (select lf [] [] 0 bs) as [(((pre, sel), post), level)|]; [discriminate|]. injection E as <- <- <-; destruct es1; discriminate.
    - destruct (Nat.leb lf 1) eqn:E1; [injection E as <- <- <-; destruct es1; discriminate|].
      destruct (select lf [] [] 0 bs) as [(((pre, sel), post), level)|] eqn:E2; [|injection E as <- <- <-; destruct es1; discriminate].
      pose proof (select_level _ _ _ _ _ _ _ _ _ E2 (fun b (H : In b []) => match H with end)) as Hlev.
      apply select_spec in E2. simpl in E2. destruct E2 as (Eb & Hl). apply Nat.leb_gt in E1. subst bs.
      destruct (blocks_ok_app _ _ B) as (_ & B2 & _). destruct (blocks_ok_app _ _ B2) as (Bsel & _ & _).
      assert (Hne : sel <> []) by (intros ->; simpl in Hl; lia).
      destruct (rewrite_blocks_ok TK next (level + 1) Bsel Hne) as (nb0 & En & Bn & Hid & Hlv & Hp). rewrite En in E.
      pose proof (merge_in_list _ _ B Hne Bn Hp) as Bm.
      destruct (check_rewrite kcmp fuel lf (next + 1) (pre ++ nb0 :: post)) as [((bs2, next2), es0)|] eqn:E3; [|discriminate].
      injection E as <- <- <-.
      destruct es1 as [|e1 es1]; simpl in Ees; injection Ees as Ee Ees.
      + subst nb ids. exists pre, sel, post. split; auto.
        * simpl. rewrite Hid. exact F.
        * intros b Hb. rewrite Hlv, (Hlev b Hb). lia.
      + subst e1. assert (Fm : files_ok (w_files (apply_eff w (EMerge nb0 (map (@b_id K V) sel)))) (pre ++ nb0 :: post) (next + 1)).
        { exact (files_merge _ _ _ _ F Hid). }
        destruct (IH _ _ (apply_eff w (EMerge nb0 (map (@b_id K V) sel))) _ _ _ es1 nb ids es2 Bm Fm E3 Ees) as (p & s & q & M). exists p, s, q. exact M.
  Qed.

  Definition is_merge (e : eff) : Prop := exists nb ids, e = EMerge nb ids.

  Lemma revert_no_merge n (bs : list block) : forall e, In e (snd (revert_blocks kcmp n bs)) -> ~ is_merge e.
  Proof.
    induction bs as [|b bs IH]; simpl; [intros e []|]. unfold revert_block.
    destruct (revert_blocks kcmp n bs) as (bs2, e2).
    intros e H (nb & ids & ->). simpl in IH.
    assert (X : In (EMerge nb ids) e2 -> False) by (intros H1; apply (IH _ H1); exists nb, ids; auto).
    destruct (n <=? b_min b); [simpl in H; destruct H as [H|H]; [discriminate|auto]|].
    destruct (n <=? b_max b); simpl in H; [destruct H as [H|H]; [discriminate|auto]|auto].
  Qed.

  Lemma op_merges lf o t w : inv t w -> op_ok o -> forall t' es, step kcmp lf o t = Some (t', es) ->
    forall es1 nb ids es2, es = es1 ++ EMerge nb ids :: es2 -> exists pre sel post, merging (apply_effs w es1) nb ids pre sel post.
  Proof.
    intros I Ho t' es E es1 nb ids es2 Ees.
    assert (Hin : In (EMerge nb ids) es) by (rewrite Ees; apply in_or_app; right; left; auto).
    destruct o as [k v|n fl|n|]; simpl in E; [| | |destruct Ho].
    - injection E as <- <-. destruct Hin as [Hin|[]]. discriminate.
    - unfold t_commit in E. destruct ((n =? u32max) || (n <=? t_cur t)) eqn:E1; [discriminate|]. apply orb_false_iff in E1. destruct E1 as (E1 & E2).
      apply N.eqb_neq in E1. apply N.leb_gt in E2.
      destruct fl; [|injection E as <- <-; destruct Hin as [Hin|[Hin|[]]]; discriminate].
      unfold t_flush in E. cbn [t_mem t_cur t_next_id t_blocks t_idx] in E. destruct (t_mem t) as [|e0 mem0] eqn:Em.
      + injection E as <- <-. simpl in Hin. destruct Hin as [Hin|[Hin|[Hin|[Hin|[]]]]]; discriminate.
      + rewrite <- Em in E. destruct (i_w _ _ _ I) as [L F _ _ _]. assert (Hne : t_mem t <> []) by congruence.
        set (b := make_block kcmp (t_next_id t) 0 (t_mem t)) in *.
        assert (Hb : block_ok kcmp b) by (apply make_block_ok; auto; apply L).
        assert (B1 : blocks_ok (t_blocks t ++ [b])).
        { apply blocks_ok_app_intro; [apply L|split; [constructor; auto|constructor; constructor]|].
          intros a c Ha [<-|[]]. destruct (bo_min Hb) as (e & He & Ee). unfold blt. rewrite <- Ee. apply (lo_ver L); auto. }
        unfold t_check_rewrite in E. cbn [t_mem t_cur t_next_id t_blocks t_idx t_last_flush] in E.
        destruct (check_rewrite kcmp (S (length (t_blocks t ++ [b]))) lf (t_next_id t + 1) (t_blocks t ++ [b])) as [((bs2, next2), es0)|] eqn:E3; [|discriminate].
        injection E as <- <-.
        destruct es1 as [|x1 [|x2 [|x3 [|x4 es1]]]]; simpl in Ees; injection Ees as; try discriminate.
        subst x1 x2 x3 x4.
        match goal with H : es0 = es1 ++ _ |- _ => rename H into Ees end.
        set (w0 := mk_world (put_file b (w_files w)) ([] : list (@logrec K V)) []).
        assert (F1 : files_ok (w_files w0) (t_blocks t ++ [b]) (t_next_id t + 1)) by (apply files_put_fresh; auto).
        exact (rewrite_merges lf _ _ _ w0 _ _ _ es1 nb ids es2 B1 F1 E3 Ees).
    - unfold t_revert in E. destruct (t_cur t <? n); [discriminate|]. pose proof (revert_no_merge n (t_blocks t)) as R.
      destruct (revert_blocks kcmp n (t_blocks t)) as (bs, ebs). injection E as <- <-. exfalso.
      destruct Hin as [Hin|[Hin|Hin]]; try discriminate. apply (R _ Hin). exists nb, ids. auto.
  Qed.

  (** ** Fine crash points *)
  Lemma expand_effs (es : list eff) : forall w : world, apply_effs w (flat_map expand es) = apply_effs w es.
  Proof.
    assert (R : forall ids (w : world), apply_effs w (map (@ERemove K V) ids) = mk_world (fold_left (fun fs id => remove_file id fs) ids (w_files w)) (w_log w) (w_pend w)).
    { induction ids as [|id ids IH]; intros w; [destruct w; auto|]. unfold apply_effs in *. simpl. rewrite IH. auto. }
    induction es as [|e es IH]; intros w; auto. cbn [flat_map]. rewrite apply_effs_app, IH.
    change (apply_effs w (e :: es)) with (apply_effs (apply_eff w e) es). f_equal. destruct e; auto.
    simpl expand. change (apply_effs w (EPut b :: map ERemove ids)) with (apply_effs (apply_eff w (EPut b)) (map ERemove ids)). rewrite R. auto.
  Qed.

  Lemma fine_prefix (es : list eff) : forall m,
    (exists i, firstn m (flat_map expand es) = flat_map expand (firstn i es)) \/
    exists es1 nb ids1 ids2 es2, es = es1 ++ EMerge nb (ids1 ++ ids2) :: es2 /\ ids2 <> [] /\
      m = (length (flat_map expand es1) + 1 + length ids1)%nat /\
      firstn m (flat_map expand es) = flat_map expand es1 ++ EPut nb :: map ERemove ids1.
  Proof.
    induction es as [|e es IH]; intros m; simpl flat_map.
    - left. exists 0%nat. rewrite firstn_nil. auto.
    - destruct (le_lt_dec (length (expand e)) m) as [Hm|Hm].
      + rewrite firstn_app, firstn_all2 by lia. destruct (IH (m - length (expand e))%nat) as [(i & Ei)|(es1 & nb & ids1 & ids2 & es2 & E1 & E2 & E3 & E4)].
        * left. exists (S i). rewrite Ei. auto.
        * right. exists (e :: es1), nb, ids1, ids2, es2. split; [simpl; congruence|]. split; auto. split; [simpl; rewrite app_length; lia|].
          rewrite E4. simpl. rewrite app_assoc. auto.
      + destruct m as [|m]; [left; exists 0%nat; auto|].
        destruct e as [b|id|b ids|r| |]; try (simpl in Hm; lia).
        simpl in Hm. rewrite map_length in Hm. right. exists [], b, (firstn m ids), (skipn m ids), es.
        split; [rewrite firstn_skipn; auto|]. split; [intros X; apply (f_equal (@length N)) in X; rewrite skipn_length in X; simpl in X; lia|].
        split; [simpl; rewrite firstn_length; lia|]. cbn [expand app firstn flat_map]. f_equal.
        rewrite firstn_app. rewrite map_length. replace (m - length ids)%nat with 0%nat by lia. simpl. rewrite app_nil_r. apply firstn_map.
  Qed.

  (** at most one source of a merge that became visible is left *)
  Definition at_most_one_left (es : list eff) (m : nat) : Prop :=
    forall es1 nb ids1 ids2 es2, es = es1 ++ EMerge nb (ids1 ++ ids2) :: es2 ->
      m = (length (flat_map expand es1) + 1 + length ids1)%nat -> (length ids2 <= 1)%nat.

  Lemma remove_last (F : list block) pre sel0 x post nb :
    files_ok F (pre ++ (sel0 ++ [x]) ++ post) (b_id nb) ->
    let F' := fold_left (fun fs id => remove_file id fs) (map (@b_id K V) sel0) (put_file nb F) in
    Permutation F' (x :: remove_file (b_id x) F').
  Proof.
    intros Fo F'. unfold F'. rewrite remove_files_filter.
    pose proof (files_put_fresh _ Fo eq_refl) as F2.
    set (g := fun b : block => negb (existsb (N.eqb (b_id b)) (map (@b_id K V) sel0))).
    pose proof (filter_perm g (fo_perm F2)) as P. set (A := filter g (put_file nb F)) in *.
    assert (NDall : NoDup (map (@b_id K V) A)).
    { assert (N0 : NoDup (map (@b_id K V) (put_file nb F))).
      { eapply Permutation_NoDup; [apply Permutation_map; symmetry; exact (fo_perm F2)|exact (fo_nodup F2)]. }
      unfold A. clear - N0. induction (put_file nb F) as [|a l IH]; simpl; [constructor|]. inversion N0; subst.
      destruct (g a); auto. simpl. constructor; auto. intros Hin. apply H1. apply in_map_iff in Hin. destruct Hin as (c & Ec & Hc).
      apply filter_In in Hc. apply in_map_iff. exists c. tauto. }
    assert (Hx : In x A).
    { unfold A. apply filter_In. split.
      - eapply Permutation_in; [symmetry; exact (fo_perm F2)|]. apply in_or_app. left. apply in_or_app. right. apply in_or_app. left.
        apply in_or_app. right. left. auto.
      - unfold g. apply negb_true_iff. apply not_true_is_false. intros X. apply existsb_exists in X. destruct X as (i & Hi & Ei).
        apply N.eqb_eq in Ei. subst i. pose proof (fo_nodup Fo) as ND. rewrite !map_app in ND. apply NoDup_app_remove_l, NoDup_app_remove_r in ND.
        eapply (NoDup_app_disj _ _ _ ND); eauto. simpl. auto. }
    clear - NDall Hx. revert NDall Hx. generalize A. clear. intros A. induction A as [|a A IH]; intros ND Hx; [destruct Hx|].
    inversion ND as [|? ? H1 H2]; subst. unfold remove_file. simpl. destruct (N.eqb_spec (b_id a) (b_id x)) as [E|E]; simpl.
    - destruct Hx as [->|Hx]; [|exfalso; apply H1; rewrite E; apply in_map; auto].
      apply perm_skip. rewrite filter_all; auto. intros y Hy. apply negb_true_iff, N.eqb_neq. intros X. apply H1. rewrite <- X. apply in_map; auto.
    - destruct Hx as [->|Hx]; [congruence|]. rewrite perm_swap. apply perm_skip. apply IH; auto.
  Qed.

  Lemma sources_within sel (nb x : block) : (forall b, In b sel -> block_ok kcmp b) -> block_ok kcmp nb -> Permutation (b_entries nb) (bentries sel) -> In x sel ->
    b_min nb <= b_min x /\ b_max x <= b_max nb.
  Proof.
    intros Hs Hn P Hx. pose proof (Hs x Hx) as Bx.
    assert (X : forall e, In e (b_entries x) -> In e (b_entries nb)).
    { intros e He. eapply Permutation_in; [symmetry; exact P|]. apply in_flat_map. exists x. auto. }
    destruct (bo_min Bx) as (e1 & H1 & E1). destruct (bo_max Bx) as (e2 & H2 & E2).
    pose proof (bo_range Hn _ (X _ H1)). pose proof (bo_range Hn _ (X _ H2)). lia.
  Qed.

  Lemma fine_is_coarse lf s o m : inv (s_tab s) (s_world s) -> op_ok o ->
    at_most_one_left (op_effs kcmp lf (Some o) (s_tab s)) m ->
    exists m', fine_crash kcmp lf s o m = sys_step kcmp lf s (EvCrash (Some o) m' 0 []).
  Proof.
    intros I Ho A1. unfold fine_crash. cbn [sys_step].
    assert (Hs : match step kcmp lf o (s_tab s) with
                 | Some (t', es) => op_effs kcmp lf (Some o) (s_tab s) = es
                 | None => op_effs kcmp lf (Some o) (s_tab s) = [] end).
    { unfold op_effs. destruct (step kcmp lf o (s_tab s)) as [(t', es)|]; auto. }
    pose proof (op_merges lf o _ _ I Ho) as Mg.
    set (es := op_effs kcmp lf (Some o) (s_tab s)) in *.
    destruct (fine_prefix es m) as [(i & Ei)|(es1 & nb & ids1 & ids2 & es2 & E1 & E2 & E3 & E4)].
    - exists i. rewrite Ei, expand_effs. auto.
    - assert (exists x, ids2 = [x]) as (x & ->).
      { specialize (A1 _ _ _ _ _ E1 E3). destruct ids2 as [|x [|y l]]; simpl in *; [congruence|eauto|lia]. }
      destruct (step kcmp lf o (s_tab s)) as [(t', es')|]; [|rewrite Hs in E1; destruct es1; discriminate].
      destruct (Mg t' es' eq_refl es1 nb (ids1 ++ [x]) es2 (eq_trans (eq_sym Hs) E1)) as (pre & sel & post & M).
      pose proof (mg_ids _ _ _ _ _ _ M) as Hid.
      destruct (exists_last (l := sel)) as (sel0 & xb & Es).
      { intros ->. destruct ids1; discriminate. }
      subst sel. rewrite map_app in Hid. simpl in Hid. apply app_inj_tail in Hid. destruct Hid as (Hi1 & Hx).
      exists (S (length es1)). rewrite E4, E1. rewrite firstn_app, firstn_all2 by lia. replace (S (length es1) - length es1)%nat with 1%nat by lia.
      cbn [firstn]. rewrite !apply_effs_app, expand_effs. set (w1 := apply_effs (s_world s) es1) in *.
      assert (R : forall ids (w : world), apply_effs w (map (@ERemove K V) ids) = mk_world (fold_left (fun fs id => remove_file id fs) ids (w_files w)) (w_log w) (w_pend w)).
      { induction ids as [|id ids IH]; intros w; [destruct w; auto|]. unfold apply_effs in *. simpl. rewrite IH. auto. }
      change (apply_effs w1 (EPut nb :: map ERemove ids1)) with (apply_effs (apply_eff w1 (EPut nb)) (map ERemove ids1)). rewrite R.
      unfold crash_disk. simpl. rewrite !app_nil_r. subst ids1 x. rewrite fold_left_app. simpl.
      set (F' := fold_left (fun fs id => remove_file id fs) (map (@b_id K V) sel0) (put_file nb (w_files w1))).
      pose proof (mg_files _ _ _ _ _ _ M) as Fo. pose proof (remove_last _ _ _ _ _ _ Fo) as PF. fold F' in PF.
      pose proof (files_merge _ _ _ _ Fo eq_refl) as Fm. simpl in Fm. rewrite map_app, fold_left_app in Fm. simpl in Fm. fold F' in Fm.
      destruct (mg_blocks _ _ _ _ _ _ M) as (Fb & _). rewrite Forall_forall in Fb.
      assert (Hsel : forall b, In b (sel0 ++ [xb]) -> block_ok kcmp b).
      { intros b Hb. apply Fb. apply in_or_app. right. apply in_or_app. auto. }
      assert (Hxin : In xb (sel0 ++ [xb])) by (apply in_or_app; right; left; auto).
      assert (Lv : leftover nb xb).
      { destruct (sources_within _ nb xb Hsel (mg_nb _ _ _ _ _ _ M) (mg_entries _ _ _ _ _ _ M) Hxin) as (X1 & X2).
        split; auto; [apply (mg_level _ _ _ _ _ _ M); auto|]. apply (fo_next Fo). apply in_or_app. right. apply in_or_app. auto. }
      unfold open_sys. simpl fst. simpl snd.
      rewrite (leftover_open lf _ F' (w_log w1) pre nb post xb (mg_after _ _ _ _ _ _ M) Lv (fo_perm Fm) PF).
      destruct (t_open kcmp lf (remove_file (b_id xb) F') (w_log w1)) as [(t, es0)|]; auto.
  Qed.
End P.
