(** Effect of each table operation on the in-memory state: content and invariants. *)
Require Import List Sorted Permutation NArith Lia Bool Arith.
Require Import Verif.OrdLib Verif.DbModel Verif.DbBlockProofs.
Import ListNotations.
Set Implicit Arguments.
Open Scope N_scope.

Lemma filter_all {A} (f : A -> bool) l : (forall x, In x l -> f x = true) -> filter f l = l.
Proof.
  induction l as [|a l IH]; simpl; intros H; auto. rewrite H by auto. f_equal. apply IH. intros. apply H. auto.
Qed.
Lemma filter_none {A} (f : A -> bool) l : (forall x, In x l -> f x = false) -> filter f l = [].
Proof.
  induction l as [|a l IH]; simpl; intros H; auto. rewrite H by auto. apply IH. intros. apply H. auto.
Qed.

Lemma NoDup_app_remove_l {A} (l1 l2 : list A) : NoDup (l1 ++ l2) -> NoDup l2.
Proof. induction l1; simpl; auto. inversion 1; auto. Qed.
Lemma NoDup_app_remove_r {A} (l1 l2 : list A) : NoDup (l1 ++ l2) -> NoDup l1.
Proof.
  induction l1; simpl; intros H; [constructor|]. inversion H as [|? ? H1 H2]; subst. constructor; auto.
  intros Hin. apply H1. apply in_or_app; auto.
Qed.
Lemma NoDup_app_disj {A} (l1 l2 : list A) x : NoDup (l1 ++ l2) -> In x l1 -> In x l2 -> False.
Proof.
  induction l1 as [|a l1 IH]; simpl; intros H []; inversion H as [|? ? H1 H2]; subst; auto.
  intros Hin. apply H1. apply in_or_app; auto.
Qed.

Section P.
  Context {K V : Type} (kcmp : K -> K -> comparison).
  Hypothesis TK : TotalCmp kcmp.
  Notation entry := (@entry K V).
  Notation block := (@block K V).
  Notation table := (@table K V).
  Notation vcmp := (vcmp kcmp).
  Notation klt := (klt kcmp).
  Notation keqb := (keqb kcmp).
  Notation TV := (TV TK).
  Notation esorted := (esorted kcmp).
  Notation block_ok := (block_ok kcmp).
  Notation blocks_ok := (blocks_ok kcmp).
  Notation lookup_ok := (lookup_ok kcmp).
  Notation idx_ok := (idx_ok kcmp).

  (** ** insert_entry *)
  Lemma idx_insert (mem : list entry) idx k v n : esorted mem -> idx_ok mem idx ->
    (forall n' v', In ((k, n'), v') mem -> n' <= n) ->
    idx_ok (aset vcmp (k, n) v mem) (aset kcmp k (v, n) idx).
  Proof.
    intros S (SI & HI) Hmax. split; [apply aset_sorted; auto|].
    intros k0 v0 n0. rewrite (aset_In TK) by auto. split.
    - intros [(-> & [= -> ->])|(Hne & Hin)].
      + split; [apply (aset_In TV); auto|]. intros n' v' Hin'. apply (aset_In TV) in Hin'; auto.
        destruct Hin' as [([= ->] & _)|(_ & Hin')]; [lia|eauto].
      + apply HI in Hin. destruct Hin as (Hin & Hm). split.
        * apply (aset_In TV); auto. right. split; auto. congruence.
        * intros n' v' Hin'. apply (aset_In TV) in Hin'; auto.
          destruct Hin' as [([= -> ->] & _)|(_ & Hin')]; [congruence|eauto].
    - intros (Hin & Hm).
      assert (Hdec : k0 = k \/ k0 <> k) by (destruct (keqb k0 k) eqn:E; [apply keqb_eq in E|apply keqb_neq in E]; auto).
      destruct Hdec as [->|Hne].
      + left. split; auto. apply (aset_In TV) in Hin; auto. destruct Hin as [([= ->] & ->)|(Hne & Hin)]; auto.
        exfalso. assert (n <= n0). { apply (Hm n v). apply (aset_In TV); auto. }
        apply Hmax in Hin. apply Hne. f_equal. lia.
      + right. split; auto. apply HI. apply (aset_In TV) in Hin; auto. destruct Hin as [([= -> ->] & _)|(_ & Hin)]; [congruence|].
        split; auto. intros n' v' Hin'. apply (Hm n' v'). apply (aset_In TV); auto. right. split; auto. congruence.
  Qed.

  Lemma insert_entry_ok (t : table) k v n : lookup_ok t -> n < u32max ->
    (forall e, In e (t_mem t) -> ever e <= n) -> (forall b, In b (t_blocks t) -> b_max b < n) ->
    lookup_ok (insert_entry kcmp n k v t).
  Proof.
    intros L U Hm Hb. split; simpl.
    - apply (lo_blocks L).
    - apply (aset_sorted TV). apply (lo_mem L).
    - apply idx_insert; [apply (lo_mem L)|apply (lo_idx L)|]. intros n' v' Hin. apply Hm in Hin. exact Hin.
    - intros b ((k0, n0), v0) Hin Hin'. apply (aset_In TV) in Hin'; [|apply (lo_mem L)].
      destruct Hin' as [([= -> ->] & _)|(_ & Hin')]; [apply Hb; auto|]. apply (lo_ver L _ _ Hin Hin').
    - intros ((k0, n0), v0) Hin'. apply (aset_In TV) in Hin'; [|apply (lo_mem L)].
      destruct Hin' as [([= -> ->] & _)|(_ & Hin')]; [auto|]. apply (lo_u32 L _ Hin').
  Qed.

  (** ** Building blocks *)
  Lemma min_ver_spec (es : list entry) : es <> [] -> (forall e, In e es -> ever e < u32max) ->
    (forall e, In e es -> min_ver es <= ever e) /\ (exists e, In e es /\ ever e = min_ver es).
  Proof.
    assert (H : forall (l : list entry) m,
      (forall e, In e l -> fold_left (fun m e => N.min (ever e) m) l m <= ever e) /\
      fold_left (fun m e => N.min (ever e) m) l m <= m /\
      (fold_left (fun m e => N.min (ever e) m) l m = m \/ exists e, In e l /\ ever e = fold_left (fun m e => N.min (ever e) m) l m)).
    { induction l as [|x l IH]; intros m; simpl.
      - split; [intros ? []|]. split; [lia|auto].
      - destruct (IH (N.min (ever x) m)) as (A & B & C). split; [|split; [lia|]].
        + intros e [->|He]; [lia|auto].
        + destruct C as [C|(e & He & Ee)]; [|right; exists e; auto].
          rewrite C. destruct (N.min_spec (ever x) m) as [(_ & ->)|(_ & ->)]; auto.
          right. exists x. auto. }
    intros Hne U. unfold min_ver. destruct (H es u32max) as (A & _ & C). split; auto.
    destruct C as [C|]; auto. exfalso. destruct es as [|x es]; [congruence|].
    specialize (A x (or_introl eq_refl)). specialize (U x (or_introl eq_refl)). rewrite C in A. lia.
  Qed.

  Lemma max_ver_spec (es : list entry) : es <> [] ->
    (forall e, In e es -> ever e <= max_ver es) /\ (exists e, In e es /\ ever e = max_ver es).
  Proof.
    assert (H : forall (l : list entry) m,
      (forall e, In e l -> ever e <= fold_left (fun m e => N.max (ever e) m) l m) /\
      m <= fold_left (fun m e => N.max (ever e) m) l m /\
      (fold_left (fun m e => N.max (ever e) m) l m = m \/ exists e, In e l /\ ever e = fold_left (fun m e => N.max (ever e) m) l m)).
    { induction l as [|x l IH]; intros m; simpl.
      - split; [intros ? []|]. split; [lia|auto].
      - destruct (IH (N.max (ever x) m)) as (A & B & C). split; [|split; [lia|]].
        + intros e [->|He]; [lia|auto].
        + destruct C as [C|(e & He & Ee)]; [|right; exists e; auto].
          rewrite C. destruct (N.max_spec (ever x) m) as [(_ & ->)|(_ & ->)]; auto.
          right. exists x. auto. }
    intros Hne. unfold max_ver. destruct (H es 0) as (A & _ & C). split; auto.
    destruct C as [C|]; auto. destruct es as [|x es]; [congruence|].
    exists x. split; [left; auto|]. specialize (A x (or_introl eq_refl)). rewrite C in *. lia.
  Qed.

  Lemma make_block_ok id lvl (es : list entry) : esorted es -> es <> [] -> (forall e, In e es -> ever e < u32max) ->
    block_ok (make_block kcmp id lvl es).
  Proof.
    intros S Hne U. destruct (min_ver_spec Hne U) as (A & B). destruct (max_ver_spec Hne) as (C & D).
    split; simpl; auto.
    destruct D as (e & He & <-). auto.
  Qed.

  (** ** revert *)
  Definition below (n : N) (e : entry) : bool := ever e <? n.

  Lemma revert_block_ok n (b : block) : block_ok b ->
    match fst (revert_block kcmp n b) with
    | None => n <= b_min b
    | Some b' => block_ok b' /\ b_id b' = b_id b /\ b_level b' = b_level b /\ b_min b' = b_min b /\ b_max b' <= b_max b /\ b_min b < n /\ b_max b' < n /\
                 b_entries b' = filter (below n) (b_entries b)
    end.
  Proof.
    intros B. unfold revert_block. destruct (N.leb_spec n (b_min b)) as [L|L]; simpl; auto.
    destruct (N.leb_spec n (b_max b)) as [L2|L2]; simpl.
    - change (fun e : entry => ever e <? n) with (below n).
      set (es := filter (below n) (b_entries b)).
      destruct (bo_min B) as (e0 & He0 & E0).
      assert (Hin0 : In e0 es). { apply filter_In. split; auto. unfold below. apply N.ltb_lt. lia. }
      assert (Hne : es <> []) by (intros Hn; rewrite Hn in Hin0; destruct Hin0).
      destruct (max_ver_spec Hne) as (C & D).
      assert (Hmx : max_ver es <= b_max b).
      { destruct D as (e & He & <-). apply filter_In in He. apply (bo_range B). tauto. }
      assert (Hmn : max_ver es < n).
      { destruct D as (e & He & <-). apply filter_In in He. destruct He as (_ & He). apply N.ltb_lt in He. auto. }
      repeat split; simpl; auto.
      + apply asorted_filter. apply (bo_sorted B).
      + apply filter_In in H. apply (bo_range B). tauto.
      + exists e0. auto.
      + pose proof (bo_u32 B). lia.
    - split; auto. repeat split; auto; try lia.
      symmetry. apply filter_all. intros e He. unfold below. apply N.ltb_lt. apply (bo_range B) in He. lia.
  Qed.

  Lemma revert_blocks_ok n (bs : list block) : blocks_ok bs ->
    let bs' := fst (revert_blocks kcmp n bs) in
    blocks_ok bs' /\ bentries bs' = filter (below n) (bentries bs) /\
    (forall b', In b' bs' -> exists b, In b bs /\ b_id b' = b_id b /\ b_min b' = b_min b /\ b_max b' <= b_max b /\ b_max b' < n).
  Proof.
    induction bs as [|b bs IH]; intros B.
    - simpl. repeat split; auto; try constructor. intros ? [].
    - destruct (@blocks_ok_app _ _ kcmp [b] bs B) as ((F & _) & B2 & H). inversion F as [|? ? Hb _]; subst.
      specialize (IH B2). simpl in IH |- *. pose proof (revert_block_ok n Hb) as R.
      destruct (revert_block kcmp n b) as (ob, e1). destruct (revert_blocks kcmp n bs) as (bs2, e2).
      simpl in *. destruct IH as (A1 & A2 & A3).
      destruct ob as [b'|].
      + destruct R as (R1 & R2 & R3 & R4 & R5 & R6 & R7 & R8). split; [|split].
        * apply (@blocks_ok_app_intro _ _ kcmp [b'] bs2); auto.
          { split; [constructor; auto|]. repeat constructor. }
          intros x y [<-|[]] Hy. apply A3 in Hy. destruct Hy as (y0 & Hy0 & _ & Hmin & _).
          specialize (H b y0 (or_introl eq_refl) Hy0). unfold blt in *. lia.
        * simpl. rewrite filter_app. rewrite R8, A2. auto.
        * intros x [<-|Hx]; [exists b; auto|]. apply A3 in Hx. destruct Hx as (x0 & Hx0 & ?). exists x0. auto.
      + split; [|split]; auto.
        * rewrite filter_app, A2. rewrite (filter_none (below n) (b_entries b)); auto.
          intros e He. unfold below. apply N.ltb_ge. apply (bo_range Hb) in He. lia.
        * intros x Hx. apply A3 in Hx. destruct Hx as (x0 & Hx0 & ?). exists x0. auto.
  Qed.

  Lemma revert_idx_ok n (mem : list entry) idx : esorted mem -> (forall e, In e mem -> ever e < u32max) -> idx_ok mem idx ->
    idx_ok (filter (below n) mem) (revert_idx kcmp n (filter (below n) mem) idx).
  Proof.
    intros S U (SI & HI). set (mem' := filter (below n) mem).
    assert (S' : esorted mem') by (apply asorted_filter; auto).
    assert (Hm' : forall e, In e mem' <-> In e mem /\ ever e < n).
    { intros e. unfold mem'. rewrite filter_In. unfold below. rewrite N.ltb_lt. tauto. }
    (* the head found by lower_bound(key, -1) is the newest remaining record of the key *)
    assert (Hlow : forall k, match alower vcmp (k, u32max) mem' with
      | e :: _ => if keqb (ekey e) k then In ((k, ever e), evl e) mem' /\ (forall n' v', In ((k, n'), v') mem' -> n' <= ever e)
                  else (forall n' v', ~ In ((k, n'), v') mem')
      | [] => forall n' v', ~ In ((k, n'), v') mem' end).
    { intros k. destruct (@alower_spec _ vcmp TV _ (k, u32max) mem' S') as (l1 & E & A & B).
      assert (HA : forall n' v', ~ In ((k, n'), v') l1).
      { intros n' v' Hin. pose proof Hin as Hin2. apply A in Hin. apply vlt_iff in Hin; auto.
        destruct Hin as [Hin|(_ & Hin)]; [eapply klt_irrefl; eauto|].
        assert (In ((k, n'), v') mem) as Hmem by (apply Hm'; rewrite E; apply in_or_app; auto).
        apply U in Hmem. unfold ever in Hmem; simpl in Hmem. lia. }
      destruct (alower vcmp (k, u32max) mem') as [|((k0, n0), v0) tl] eqn:Et.
      - rewrite app_nil_r in E. rewrite E. exact HA.
      - rewrite E in S'. destruct (esorted_app TK _ _ S') as (_ & S2 & _). destruct (esorted_cons_inv TK S2) as (_ & G).
        unfold ekey at 1, ever at 1 2, evl; simpl.
        destruct (keqb k0 k) eqn:C; [apply (keqb_eq TK) in C|apply (keqb_neq TK) in C].
        + subst k0. split; [rewrite E; apply in_or_app; right; left; auto|].
          intros n' v' Hin. rewrite E in Hin. apply in_app_or in Hin. destruct Hin as [Hin|[[= <- <-]|Hin]]; [exfalso; eapply HA; eauto|lia|].
          apply G in Hin. unfold ekey, ever in Hin; simpl in Hin. destruct Hin as [Hin|(_ & Hin)]; [exfalso; eapply klt_irrefl; eauto|lia].
        + intros n' v' Hin. rewrite E in Hin. apply in_app_or in Hin. destruct Hin as [Hin|[[= <- <- <-]|Hin]]; [eapply HA; eauto|congruence|].
          assert (N0 : ~ OrdLib.klt vcmp (k0, n0) (k, u32max)) by (apply (B (k0, n0) v0); left; auto).
          rewrite vlt_iff in N0 by auto. apply G in Hin. unfold ekey, ever in Hin; simpl in Hin. destruct Hin as [Hin|(-> & _)]; auto. }
    assert (Hmem : forall k v ver, In (k, (v, ver)) (revert_idx kcmp n mem' idx) <->
              In ((k, ver), v) mem' /\ (forall n' v', In ((k, n'), v') mem' -> n' <= ver)).
    { intros k v ver. unfold revert_idx. rewrite in_flat_map. split.
      - intros ((k0 & (v0 & ver0)) & Hin & H). pose proof Hin as Hin2. apply HI in Hin. destruct Hin as (Hin & Hmx).
        destruct (N.leb_spec n ver0) as [L|L].
        + specialize (Hlow k0). destruct (alower vcmp (k0, u32max) mem') as [|e tl]; [destruct H|].
          destruct (keqb (ekey e) k0) eqn:C; [|destruct H]. destruct H as [[= <- <- <-]|[]]. exact Hlow.
        + destruct H as [[= <- <- <-]|[]]. split; [apply Hm'; split; auto|].
          intros n' v' Hin'. apply Hm' in Hin'. destruct Hin' as (Hin' & _). eauto.
      - intros (Hin & Hmx). pose proof Hin as Hin2. apply Hm' in Hin. destruct Hin as (Hin & Lt). unfold ever in Lt; simpl in Lt.
        (* the index of the old memory has some entry for k *)
        assert (exists v0 ver0, In (k, (v0, ver0)) idx) as (v0 & ver0 & H0).
        { destruct (aget kcmp k idx) as [(v0, ver0)|] eqn:E.
          - exists v0, ver0. apply (aget_In TK); auto.
          - exfalso. assert (Hx : newest mem k u32max (find_mem kcmp (mk_table 0 0 0 [] mem idx) k u32max))
              by (apply (@find_mem_newest _ _ kcmp TK (mk_table 0 0 0 [] mem idx)); auto).
            destruct (find_mem kcmp (mk_table 0 0 0 [] mem idx) k u32max) as [v'|].
            + destruct Hx as (n' & I' & L' & M'). eapply (aget_None TK) in E; eauto. apply E. apply HI. split; eauto.
              intros n'' v'' I''. apply (M' _ v''); auto. apply U in I''. unfold ever in I''; simpl in I''. lia.
            + pose proof (U _ Hin) as HU. apply Hx in Hin. unfold ever in HU; simpl in HU. lia. }
        exists (k, (v0, ver0)). split; auto.
        pose proof H0 as H0'. apply HI in H0. destruct H0 as (H0 & M0).
        destruct (N.leb_spec n ver0) as [L|L].
        + specialize (Hlow k). destruct (alower vcmp (k, u32max) mem') as [|e tl]; [exfalso; eapply Hlow; eauto|].
          destruct (keqb (ekey e) k) eqn:C; [|exfalso; eapply Hlow; eauto]. destruct Hlow as (A & B).
          assert (ever e = ver) by (apply N.le_antisymm; eauto). subst ver.
          left. f_equal. f_equal. eapply (esorted_fun TK); [apply S'|eauto|eauto].
        + left. assert (ver0 = ver). { apply N.le_antisymm; [|eauto]. apply (Hmx ver0 v0). apply Hm'. auto. }
          subst ver0. f_equal. f_equal. eapply (esorted_fun TK); [apply S|eauto|eauto]. }
    split; auto.
    (* sortedness: keys are a subsequence *)
    clear - SI TK. unfold revert_idx. induction idx as [|(k, (v, ver)) idx IH]; simpl; [constructor|].
    destruct (asorted_cons_inv SI) as (S' & F).
    assert (Hsub : forall k' p, In (k', p) (flat_map (fun p : K * (V * N) => let '(k, (v, ver)) := p in
      if n <=? ver then match alower vcmp (k, u32max) mem' with
        | e :: _ => if keqb (ekey e) k then [(k, (evl e, ever e))] else [] | [] => [] end else [p]) idx) -> klt k k').
    { intros k' p Hin. apply in_flat_map in Hin. destruct Hin as ((k0 & (v0 & ver0)) & Hin & H). apply F in Hin.
      destruct (n <=? ver0).
      - destruct (alower vcmp (k0, u32max) mem') as [|e tl]; [destruct H|]. destruct (keqb (ekey e) k0); [|destruct H].
        destruct H as [[= <- <-]|[]]. auto.
      - destruct H as [[= <- <-]|[]]. auto. }
    specialize (IH S').
    destruct (n <=? ver).
    - destruct (alower vcmp (k, u32max) mem') as [|e tl]; simpl; auto. destruct (keqb (ekey e) k); simpl; auto.
      apply asorted_cons; auto.
    - simpl. apply asorted_cons; auto.
  Qed.

  Lemma revert_lookup n (t : table) : lookup_ok t -> n <= t_cur t ->
    exists t' es, t_revert kcmp n t = Some (t', es) /\ lookup_ok t' /\ t_cur t' = n /\
      content t' = filter (below n) (content t) /\ t_mem t' = filter (below n) (t_mem t) /\
      t_blocks t' = fst (revert_blocks kcmp n (t_blocks t)) /\ t_next_id t' = t_next_id t /\
      es = [EAppend (LRevert n); EFlush] ++ snd (revert_blocks kcmp n (t_blocks t)).
  Proof.
    intros L Hn. unfold t_revert. destruct (N.ltb_spec (t_cur t) n); [lia|].
    pose proof (revert_blocks_ok n (lo_blocks L)) as R.
    destruct (revert_blocks kcmp n (t_blocks t)) as (bs, ebs) eqn:E. simpl in R. destruct R as (R1 & R2 & R3).
    eexists _, _. split; [reflexivity|]. split; [|simpl; repeat split; auto].
    - split; simpl.
      + apply R1.
      + apply asorted_filter. apply (lo_mem L).
      + apply revert_idx_ok; apply L.
      + intros b e Hb He. apply R3 in Hb. destruct Hb as (b0 & Hb0 & _ & _ & Hmx & _). apply filter_In in He.
        pose proof (lo_ver L b0 e Hb0 (proj1 He)). lia.
      + intros e He. apply filter_In in He. apply (lo_u32 L). tauto.
    - unfold content. simpl. rewrite filter_app, R2. auto.
  Qed.

  (** ** Merging *)
  Notation cursor := (@cursor K V).
  Definition mflat (m : list ((K * N) * cursor)) : list entry :=
    flat_map (fun p => (fst p, fst (snd p)) :: snd (snd p)) m.

  Record merge_ok (m : list ((K * N) * cursor)) : Prop := {
    mo_sorted : asorted vcmp m;
    mo_nodup : NoDup (map fst (mflat m));
    mo_each : forall kv v rest, In (kv, (v, rest)) m -> esorted ((kv, v) :: rest)
  }.

  Lemma mflat_keys m kv c : In (kv, c) m -> In kv (map fst (mflat m)).
  Proof.
    intros H. apply in_map_iff. exists (kv, fst c). split; auto. unfold mflat. apply in_flat_map.
    exists (kv, c). split; auto. left. auto.
  Qed.

  Lemma aset_fresh_perm kv (c : cursor) m : asorted vcmp m -> (forall c', ~ In (kv, c') m) ->
    Permutation (aset vcmp kv c m) ((kv, c) :: m).
  Proof.
    intros S. induction m as [|(k0, c0) m IH]; intros F; simpl; auto.
    destruct (asorted_cons_inv S) as (S' & _).
    destruct (vcmp kv k0) eqn:E; auto.
    - apply (tc_eq TV) in E. subst. exfalso. apply (F c0). left; auto.
    - rewrite IH; auto. apply perm_swap. intros c' Hin. apply (F c'). right; auto.
  Qed.

  Lemma mflat_perm m1 m2 : Permutation m1 m2 -> Permutation (mflat m1) (mflat m2).
  Proof. intros P. unfold mflat. apply Permutation_flat_map; auto. Qed.

  Lemma NoDup_perm_map (l1 l2 : list entry) : Permutation l1 l2 -> NoDup (map fst l1) -> NoDup (map fst l2).
  Proof. intros P H. eapply Permutation_NoDup; [apply Permutation_map; eauto|auto]. Qed.

  Lemma adel_other kv (m : list ((K * N) * cursor)) : (forall kv' c, In (kv', c) m -> kv' <> kv) -> adel kcmp kv m = m.
  Proof.
    intros H. unfold adel. apply filter_all. intros (kv', c) Hin. simpl.
    destruct (vcmp kv' kv) eqn:E; auto. apply (tc_eq TV) in E. exfalso. eapply H; eauto.
  Qed.

  Lemma merge_loop_ok fuel m : merge_ok m -> (length (mflat m) <= fuel)%nat ->
    exists out, merge_loop kcmp fuel m = Some out /\ esorted out /\ Permutation out (mflat m).
  Proof.
    revert m. induction fuel as [|fuel IH]; intros m M F.
    - destruct m as [|(kv, (v, rest)) m]; [|simpl in F; lia]. exists []. repeat split; auto. constructor.
    - destruct m as [|(kv, (v, rest)) m]; [exists []; repeat split; auto; constructor|].
      cbn [merge_loop].
      destruct (asorted_cons_inv (mo_sorted M)) as (S' & G).
      assert (ND : NoDup (map fst (mflat m))).
      { pose proof (mo_nodup M) as N0. simpl in N0. inversion N0 as [|? ? _ N1]; subst.
        rewrite map_app in N1. apply NoDup_app_remove_l in N1. auto. }
      (* all other keys are above kv *)
      assert (Hgt : forall e, In e (rest ++ mflat m) -> OrdLib.klt vcmp kv (fst e)).
      { intros e He. apply in_app_or in He. destruct He as [He|He].
        - pose proof (mo_each M kv v rest (or_introl eq_refl)) as Se. destruct (asorted_cons_inv Se) as (_ & Ge).
          destruct e as (ek, ev). eapply Ge; eauto.
        - unfold mflat in He. apply in_flat_map in He. destruct He as ((kv', (v', rest')) & Hin & He). simpl in He.
          assert (L : OrdLib.klt vcmp kv kv') by (eapply G; eauto).
          destruct He as [<-|He]; auto. pose proof (mo_each M kv' v' rest' (or_intror Hin)) as Se.
          destruct (asorted_cons_inv Se) as (_ & Ge). destruct e as (ek, ev). simpl.
          eapply klt_trans; [apply TV|apply L|]. eapply Ge; eauto. }
      assert (Hne : forall kv' c, In (kv', c) m -> kv' <> kv).
      { intros kv' c Hin ->. apply G in Hin. eapply (klt_irrefl TV); eauto. }
      destruct rest as [|(ke, ve) es].
      + assert (M' : merge_ok m).
        { split; auto. intros. eapply (mo_each M). right; eauto. }
        simpl in F. destruct (IH m M' ltac:(lia)) as (out & E & So & P).
        assert (Ea : adel kcmp kv ((kv, (v, [])) :: m) = m).
        { unfold adel. simpl. rewrite (cmp_refl TV). apply adel_other. auto. }
        exists ((kv, v) :: out). split; [unfold DbModel.cursor, DbModel.entry in *; rewrite Ea, E; auto|]. split.
        * apply asorted_cons; auto. intros k' v' Hin. eapply Permutation_in in Hin; eauto.
          specialize (Hgt (k', v') Hin). auto.
        * simpl. constructor. auto.
      + pose proof (mo_nodup M) as N0. simpl in N0.
        assert (Lke : OrdLib.klt vcmp kv ke) by (apply (Hgt (ke, ve)); left; auto).
        assert (Fresh : forall c', ~ In (ke, c') m).
        { intros c' Hin. apply mflat_keys in Hin. inversion N0 as [|? ? _ N1]; subst. inversion N1 as [|? ? N2 _]; subst.
          apply N2. rewrite map_app. apply in_or_app. auto. }
        assert (Ea : adel kcmp kv (aset vcmp ke (ve, es) ((kv, (v, (ke, ve) :: es)) :: m)) = aset vcmp ke (ve, es) m).
        { simpl. assert (vcmp ke kv = Gt) as -> by (apply (cmp_gt_lt TV); auto).
          unfold adel. simpl. rewrite (cmp_refl TV). apply adel_other.
          intros kv' c Hin. apply (aset_In TV) in Hin; auto. destruct Hin as [(-> & _)|(_ & Hin)]; eauto.
          intros ->. eapply (klt_irrefl TV); eauto. }
        cbn [fst snd].
        assert (Pm : Permutation (mflat (aset vcmp ke (ve, es) m)) ((ke, ve) :: es ++ mflat m)).
        { rewrite (mflat_perm (@aset_fresh_perm ke (ve, es) m S' Fresh)). simpl. auto. }
        assert (M' : merge_ok (aset vcmp ke (ve, es) m)).
        { split.
          - apply (aset_sorted TV). auto.
          - eapply NoDup_perm_map; [symmetry; apply Pm|]. inversion N0; subst. auto.
          - intros kv' v' rest' Hin. apply (aset_In TV) in Hin; auto. destruct Hin as [(-> & [= -> ->])|(_ & Hin)].
            + pose proof (mo_each M kv v ((ke, ve) :: es) (or_introl eq_refl)) as Se. destruct (asorted_cons_inv Se) as (Se' & _). auto.
            + eapply (mo_each M). right; eauto. }
        destruct (IH _ M') as (out & E & So & P).
        { rewrite (Permutation_length Pm). change (S (S (length (es ++ mflat m))) <= S fuel)%nat in F. simpl. lia. }
        exists ((kv, v) :: out). split; [unfold DbModel.cursor, DbModel.entry in *; rewrite Ea, E; auto|]. split.
        * apply asorted_cons; auto. intros k' v' Hin. eapply Permutation_in in Hin; eauto. eapply Permutation_in in Hin; eauto.
          specialize (Hgt (k', v')). simpl in Hgt. apply Hgt. simpl in Hin. auto.
        * simpl. constructor. rewrite P. auto.
  Qed.

  Lemma merge_init_ok (bs : list block) m : merge_ok m -> (forall b, In b bs -> esorted (b_entries b)) ->
    NoDup (map fst (mflat m ++ bentries bs)) ->
    merge_ok (merge_init kcmp bs m) /\ Permutation (mflat (merge_init kcmp bs m)) (mflat m ++ bentries bs).
  Proof.
    revert m. induction bs as [|b bs IH]; intros m M S ND; simpl.
    - rewrite app_nil_r. auto.
    - assert (Sb : esorted (b_entries b)) by (apply S; left; auto).
      destruct (b_entries b) as [|(ke, ve) es] eqn:E.
      + simpl. apply IH; auto. intros. apply S. right; auto. simpl in ND. rewrite E in ND. auto.
      + assert (Fresh : forall c', ~ In (ke, c') m).
        { intros c' Hin. apply mflat_keys in Hin. simpl in ND. rewrite E in ND. rewrite map_app in ND.
          apply NoDup_remove_2 in ND. apply ND. apply in_or_app. auto. }
        cbn [fst snd].
        assert (Pm : Permutation (mflat (aset vcmp ke (ve, es) m)) ((ke, ve) :: es ++ mflat m)).
        { rewrite (mflat_perm (@aset_fresh_perm ke (ve, es) m (mo_sorted M) Fresh)). simpl. auto. }
        assert (Pall : Permutation (mflat (aset vcmp ke (ve, es) m) ++ bentries bs) (mflat m ++ ((ke, ve) :: es) ++ bentries bs)).
        { rewrite Pm. rewrite app_assoc. apply Permutation_app_tail. change ((ke, ve) :: es ++ mflat m) with (((ke, ve) :: es) ++ mflat m).
          apply Permutation_app_comm. }
        assert (ND' : NoDup (map fst (mflat (aset vcmp ke (ve, es) m) ++ bentries bs))).
        { eapply NoDup_perm_map; [symmetry; apply Pall|]. simpl in ND. rewrite E in ND. auto. }
        destruct (IH (aset vcmp ke (ve, es) m)) as (A & B); auto.
        * split.
          { apply (aset_sorted TV). apply (mo_sorted M). }
          { rewrite map_app in ND'. apply NoDup_app_remove_r in ND'. auto. }
          { intros kv' v' rest' Hin. apply (aset_In TV) in Hin; [|apply (mo_sorted M)]. destruct Hin as [(-> & [= -> ->])|(_ & Hin)]; auto.
            eapply (mo_each M); eauto. }
        * intros. apply S. right; auto.
        * split; auto. rewrite B. rewrite Pall. simpl. auto.
  Qed.

  Lemma entries_nodup (es : list entry) : esorted es -> NoDup (map fst es).
  Proof.
    intros S. unfold DbBlockProofs.esorted, asorted in S. induction S as [|a l S IH F]; constructor; auto.
    intros Hin. rewrite Forall_forall in F. apply F in Hin. eapply (klt_irrefl TV); eauto.
  Qed.

  Lemma NoDup_app_intro {A} (l1 l2 : list A) : NoDup l1 -> NoDup l2 -> (forall x, In x l1 -> In x l2 -> False) -> NoDup (l1 ++ l2).
  Proof.
    induction 1 as [|a l H N IH]; simpl; intros N2 D; auto. constructor.
    - intros Hin. apply in_app_or in Hin. destruct Hin; auto. eapply D; eauto.
    - apply IH; auto. intros; eapply D; eauto.
  Qed.

  Lemma bentries_nodup (bs : list block) : blocks_ok bs -> NoDup (map fst (bentries bs)).
  Proof.
    induction bs as [|b bs IH]; intros B; [constructor|].
    destruct (@blocks_ok_app _ _ kcmp [b] bs B) as ((F & _) & B2 & H). inversion F as [|? ? Hb _]; subst.
    simpl. rewrite map_app. apply NoDup_app_intro; auto.
    - apply entries_nodup. apply (bo_sorted Hb).
    - intros (k, n) H1 H2. apply in_map_iff in H1, H2. destruct H1 as (e1 & E1 & H1), H2 as (e2 & E2 & H2).
      assert (ever e1 < ever e2). { apply (@blocks_ver_lt _ _ kcmp [b] bs); auto. simpl. rewrite app_nil_r. auto. }
      unfold ever in *. rewrite E1, E2 in *. simpl in *. lia.
  Qed.

  Lemma rewrite_blocks_ok id lvl (bs : list block) : blocks_ok bs -> bs <> [] ->
    exists nb, rewrite_blocks kcmp id lvl bs = Some nb /\ block_ok nb /\ b_id nb = id /\ b_level nb = lvl /\
      Permutation (b_entries nb) (bentries bs).
  Proof.
    intros B Hne. unfold rewrite_blocks.
    pose proof (bentries_nodup B) as ND. destruct B as (F & So). rewrite Forall_forall in F.
    destruct (@merge_init_ok bs []) as (M & P).
    { split; [constructor|constructor|intros ? ? ? []]. }
    { intros b Hb. apply (bo_sorted (F b Hb)). }
    { simpl. auto. }
    simpl in P.
    assert (Hlen : length (mflat (merge_init kcmp bs [])) = list_sum (map (fun b => length (b_entries b)) bs)).
    { rewrite (Permutation_length P). clear. induction bs; simpl; auto. rewrite app_length. auto. }
    destruct (merge_loop_ok (fuel := S (list_sum (map (fun b : block => length (b_entries b)) bs))) M) as (out & E & So' & P').
    { rewrite Hlen. lia. }
    rewrite E. exists (make_block kcmp id lvl out). split; auto.
    assert (Pf : Permutation out (bentries bs)) by (rewrite P'; auto).
    split; [|repeat split; auto].
    apply make_block_ok; auto.
    - intros ->. apply Permutation_nil in Pf. destruct bs as [|b bs]; [congruence|].
      destruct (bo_min (F b (or_introl eq_refl))) as (e & He & _). simpl in Pf. destruct (b_entries b); [destruct He|discriminate].
    - intros e He. eapply Permutation_in in He; eauto. unfold bentries in He. apply in_flat_map in He.
      destruct He as (b & Hb & He). pose proof (bo_range (F b Hb) _ He). pose proof (bo_u32 (F b Hb)). lia.
  Qed.

  Lemma select_spec lf (pre sel : list block) level bs p s post l :
    select lf pre sel level bs = Some (p, s, post, l) ->
    pre ++ sel ++ bs = p ++ s ++ post /\ (lf <= length s)%nat.
  Proof.
    revert pre sel level. induction bs as [|b bs IH]; simpl; intros pre sel level H; [discriminate|].
    destruct (match sel with [] => true | _ => b_level b =? level end).
    - destruct (Nat.ltb_spec lf (length (sel ++ [b]))) as [L|L].
      + injection H as <- <- <- <-. split; auto. rewrite app_length in L. simpl in L. lia.
      + apply IH in H. rewrite <- app_assoc in H. auto.
    - apply IH in H. rewrite <- !app_assoc in H. auto.
  Qed.

  Lemma last_version_app (bs : list block) b : last_version (bs ++ [b]) = b_max b + 1.
  Proof. unfold last_version. rewrite fold_left_app. auto. Qed.

  Lemma last_version_gt (bs : list block) e : blocks_ok bs -> In e (bentries bs) -> ever e < last_version bs.
  Proof.
    intros B He. destruct bs as [|b0 bs0]; [destruct He|].
    destruct (@exists_last _ (b0 :: bs0)) as (bs & b & E); [discriminate|]. rewrite E in *.
    rewrite last_version_app. destruct (blocks_ok_app _ _ B) as (B1 & (F & _) & H). inversion F as [|? ? Hb _]; subst.
    unfold bentries in He. rewrite flat_map_app in He. apply in_app_or in He. destruct He as [He|He].
    - destruct (bo_max Hb) as (e' & He' & E'). assert (ever e < ever e').
      { apply (@blocks_ver_lt _ _ kcmp bs [b]); auto. simpl. rewrite app_nil_r. auto. } lia.
    - simpl in He. rewrite app_nil_r in He. apply (bo_range Hb) in He. lia.
  Qed.

  Lemma last_version_attained (bs : list block) : blocks_ok bs -> bs <> [] -> exists e, In e (bentries bs) /\ last_version bs = ever e + 1.
  Proof.
    intros B Hne. destruct (@exists_last _ bs) as (bs' & b & ->); auto.
    destruct (blocks_ok_app _ _ B) as (B1 & (F & _) & H). inversion F as [|? ? Hb _]; subst.
    destruct (bo_max Hb) as (e' & He' & E'). exists e'. rewrite last_version_app. split; [|lia].
    unfold bentries. rewrite flat_map_app. apply in_or_app. right. simpl. rewrite app_nil_r. auto.
  Qed.

  (** the version reported by a block list only depends on its entries *)
  Lemma last_version_ext (bs bs' : list block) : blocks_ok bs -> blocks_ok bs' -> (forall e, In e (bentries bs) <-> In e (bentries bs')) ->
    last_version bs = last_version bs'.
  Proof.
    intros B B' H.
    assert (X : forall l l' : list block, blocks_ok l -> blocks_ok l' -> (forall e, In e (bentries l) -> In e (bentries l')) -> last_version l <= last_version l').
    { intros l l' Bl Bl' Hl. destruct l as [|b l]; [apply N.le_0_l|].
      destruct (last_version_attained Bl) as (e & He & ->); [discriminate|]. apply Hl in He. apply (last_version_gt _ Bl') in He. lia. }
    apply N.le_antisymm; apply X; auto; intros e; apply H.
  Qed.

  Lemma merge_in_list (pre sel post : list block) nb : blocks_ok (pre ++ sel ++ post) -> sel <> [] -> block_ok nb ->
    Permutation (b_entries nb) (bentries sel) -> blocks_ok (pre ++ nb :: post).
  Proof.
    intros B Hne Hnb P.
    destruct (blocks_ok_app _ _ B) as (B1 & B23 & H1). destruct (blocks_ok_app _ _ B23) as (B2 & B3 & H2).
    (* bounds of the merged block are attained by records of the sources *)
    destruct (bo_min Hnb) as (emin & Hmin & Emin). destruct (bo_max Hnb) as (emax & Hmax & Emax).
    eapply Permutation_in in Hmin; eauto. eapply Permutation_in in Hmax; eauto.
    apply blocks_ok_app_intro; auto.
    - apply (@blocks_ok_app_intro _ _ kcmp [nb] post); auto.
      + split; [constructor; auto|repeat constructor].
      + intros a b [<-|[]] Hb. unfold blt. rewrite <- Emax. unfold bentries in Hmax. apply in_flat_map in Hmax.
        destruct Hmax as (b0 & Hb0 & He0). specialize (H2 b0 b Hb0 Hb). unfold blt in H2.
        destruct B2 as (F2 & _). rewrite Forall_forall in F2. pose proof (bo_range (F2 b0 Hb0) _ He0). lia.
    - intros a b Ha [<-|Hb]; [|apply H1; auto; apply in_or_app; auto].
      unfold blt. rewrite <- Emin. unfold bentries in Hmin. apply in_flat_map in Hmin.
      destruct Hmin as (b0 & Hb0 & He0). specialize (H1 a b0 Ha ltac:(apply in_or_app; auto)). unfold blt in H1.
      destruct B2 as (F2 & _). rewrite Forall_forall in F2. pose proof (bo_range (F2 b0 Hb0) _ He0). lia.
  Qed.

  (** ** Files *)
  Record files_ok (fs bs : list block) (next : N) : Prop := {
    fo_perm : Permutation fs bs;
    fo_nodup : NoDup (map (@b_id K V) bs);
    fo_next : forall b, In b bs -> b_id b < next
  }.

  Lemma remove_files_filter ids (fs : list block) :
    fold_left (fun fs id => remove_file id fs) ids fs = filter (fun b => negb (existsb (N.eqb (b_id b)) ids)) fs.
  Proof.
    revert fs. induction ids as [|id ids IH]; intros fs; simpl.
    - symmetry. apply filter_all. auto.
    - rewrite IH. unfold remove_file. induction fs as [|f fs IHf]; simpl; auto.
      destruct (b_id f =? id); simpl; auto. destruct (negb (existsb (N.eqb (b_id f)) ids)); simpl; rewrite IHf; auto.
  Qed.

  Lemma filter_perm {A} (f : A -> bool) l1 l2 : Permutation l1 l2 -> Permutation (filter f l1) (filter f l2).
  Proof.
    induction 1; simpl; auto.
    - destruct (f x); auto.
    - destruct (f x), (f y); auto. apply perm_swap.
    - etransitivity; eauto.
  Qed.

  Lemma filter_id_notin (ids : list N) (bs : list block) : (forall b, In b bs -> ~ In (b_id b) ids) ->
    filter (fun b => negb (existsb (N.eqb (b_id b)) ids)) bs = bs.
  Proof.
    intros H. apply filter_all. intros b Hb. apply negb_true_iff. apply not_true_is_false. intros E.
    apply existsb_exists in E. destruct E as (x & Hx & E). apply N.eqb_eq in E. subst. eapply H; eauto.
  Qed.
  Lemma filter_id_in (ids : list N) (bs : list block) : (forall b, In b bs -> In (b_id b) ids) ->
    filter (fun b => negb (existsb (N.eqb (b_id b)) ids)) bs = [].
  Proof.
    intros H. apply filter_none. intros b Hb. apply negb_false_iff. apply existsb_exists. exists (b_id b).
    split; auto. apply N.eqb_refl.
  Qed.

  Lemma files_put_fresh fs bs next nb : files_ok fs bs next -> b_id nb = next ->
    files_ok (put_file nb fs) (bs ++ [nb]) (next + 1).
  Proof.
    intros F E. split.
    - unfold put_file. rewrite (filter_all _ fs).
      + apply Permutation_app_tail. apply (fo_perm F).
      + intros x Hx. eapply Permutation_in in Hx; [|apply (fo_perm F)]. apply (fo_next F) in Hx.
        apply negb_true_iff, N.eqb_neq. lia.
    - rewrite map_app. apply NoDup_app_intro; [apply (fo_nodup F)|repeat constructor; simpl; auto|].
      intros x Hx [<-|[]]. apply in_map_iff in Hx. destruct Hx as (b & Eb & Hb). apply (fo_next F) in Hb. lia.
    - intros b Hb. apply in_app_or in Hb. destruct Hb as [Hb|[<-|[]]]; [apply (fo_next F) in Hb|]; lia.
  Qed.

  Lemma files_merge fs pre sel post next nb : files_ok fs (pre ++ sel ++ post) next -> b_id nb = next ->
    files_ok (w_files (apply_eff (mk_world fs ([] : list (@logrec K V)) []) (EMerge nb (map (@b_id K V) sel)))) (pre ++ nb :: post) (next + 1).
  Proof.
    intros F E. simpl. rewrite remove_files_filter.
    pose proof (files_put_fresh _ F E) as F2.
    assert (Hids : forall b, In b sel -> In (b_id b) (map (@b_id K V) sel)) by (intros; apply in_map; auto).
    pose proof (fo_nodup F) as ND. rewrite !map_app in ND.
    assert (Hpre : forall b, In b pre -> ~ In (b_id b) (map (@b_id K V) sel)).
    { intros b Hb Hin. apply (in_map (@b_id K V)) in Hb. eapply (NoDup_app_disj _ _ _ ND); eauto. apply in_or_app; auto. }
    assert (Hpost : forall b, In b post -> ~ In (b_id b) (map (@b_id K V) sel)).
    { intros b Hb Hin. apply (in_map (@b_id K V)) in Hb. apply NoDup_app_remove_l in ND. eapply (NoDup_app_disj _ _ _ ND); eauto. }
    assert (Hnb : ~ In (b_id nb) (map (@b_id K V) sel)).
    { intros Hin. apply in_map_iff in Hin. destruct Hin as (b & Eb & Hb).
      assert (b_id b < next) by (apply (fo_next F); apply in_or_app; right; apply in_or_app; auto). lia. }
    assert (P : Permutation (filter (fun b => negb (existsb (N.eqb (b_id b)) (map (@b_id K V) sel))) (put_file nb fs)) (pre ++ nb :: post)).
    { rewrite (filter_perm _ (fo_perm F2)). rewrite !filter_app. rewrite (filter_id_notin _ pre) by auto.
      rewrite (filter_id_in _ sel) by auto. rewrite (filter_id_notin _ post) by auto.
      rewrite (filter_id_notin _ [nb]); [|intros b [<-|[]]; auto]. simpl. rewrite <- app_assoc.
      apply Permutation_app_head. rewrite Permutation_app_comm. auto. }
    split; auto.
    - pose proof (fo_nodup F2) as ND2. rewrite !map_app in ND2. rewrite map_app. simpl.
      rewrite <- !app_assoc in ND2.
      assert (NDx : NoDup (map (@b_id K V) pre ++ map (@b_id K V) post ++ [b_id nb])).
      { clear - ND2. simpl in ND2. induction (map (@b_id K V) pre) as [|a l IH]; simpl in *.
        - apply NoDup_app_remove_l in ND2. auto.
        - inversion ND2; subst. constructor; auto. intros Hin. apply H1. apply in_app_or in Hin. apply in_or_app.
          destruct Hin; auto. right. apply in_or_app. auto. }
      eapply Permutation_NoDup; [|apply NDx]. apply Permutation_app_head. symmetry. apply Permutation_cons_append.
    - intros b Hb. apply (fo_next F2). apply in_app_or in Hb. rewrite <- !app_assoc. apply in_or_app.
      destruct Hb as [|[<-|]]; auto; right; apply in_or_app; right; apply in_or_app; simpl; auto.
  Qed.
End P.
