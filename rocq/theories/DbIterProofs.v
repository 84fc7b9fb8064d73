(** The cursors of an iterator stand at the first records of their sources that are still to come. *)
Require Import List Sorted Permutation NArith Lia Bool Arith.
Require Import Verif.OrdLib Verif.DbModel Verif.DbBlockProofs Verif.DbIterModel Verif.DbIterSpec.
Import ListNotations.
Open Scope N_scope.

Section P.
  Context {K V : Type} (kcmp : K -> K -> comparison).
  Hypothesis TK : TotalCmp kcmp.
  Notation entry := (@entry K V).
  Notation block := (@block K V).
  Notation table := (@table K V).
  Notation klt := (OrdLib.klt kcmp).
  Notation keqb := (DbModel.keqb kcmp).
  Notation pointer := (@pointer V).
  Notation bmcmp := (bmcmp kcmp).
  Notation lookup_ok := (@lookup_ok K V kcmp).

  Definition dcmp (d : dir) := match d with Fwd => kcmp | Bwd => flipcmp kcmp end.
  Definition dlt (d : dir) (x y : K) := match d with Fwd => klt x y | Bwd => klt y x end.

  Lemma dcmp_total d : TotalCmp (dcmp d).
  Proof. destruct d; simpl; auto. apply flipcmp_total; auto. Qed.
  Lemma bmcmp_total d : TotalCmp (bmcmp d).
  Proof. unfold DbIterModel.bmcmp. apply lexcmp_total; [apply (dcmp_total d)|]. apply flipcmp_total, Ncompare_total. Qed.
  Lemma dlt_dcmp d x y : dlt d x y <-> OrdLib.klt (dcmp d) x y.
  Proof. destruct d; simpl; unfold OrdLib.klt, flipcmp; tauto. Qed.
  Lemma dlt_irrefl d x : ~ dlt d x x.
  Proof. rewrite dlt_dcmp. apply klt_irrefl, dcmp_total. Qed.
  Lemma dlt_trans d x y z : dlt d x y -> dlt d y z -> dlt d x z.
  Proof. rewrite !dlt_dcmp. apply klt_trans, dcmp_total. Qed.
  Lemma dlt_asym d x y : dlt d x y -> dlt d y x -> False.
  Proof. rewrite !dlt_dcmp. apply klt_asym, dcmp_total. Qed.
  Lemma dlt_total d x y : dlt d x y \/ x = y \/ dlt d y x.
  Proof. rewrite !dlt_dcmp. apply klt_total, dcmp_total. Qed.

  Lemma bmlt d k1 n1 k2 n2 : OrdLib.klt (bmcmp d) (k1, n1) (k2, n2) <-> dlt d k1 k2 \/ (k1 = k2 /\ n2 < n1).
  Proof.
    pose proof (dcmp_total d) as T.
    unfold OrdLib.klt at 1, DbIterModel.bmcmp, lexcmp; simpl. fold (dcmp d). rewrite dlt_dcmp. unfold OrdLib.klt.
    destruct (dcmp d k1 k2) eqn:E.
    - apply (tc_eq T) in E. subst. unfold flipcmp. rewrite N.compare_lt_iff. split; auto.
      intros [H|[_ H]]; auto. discriminate.
    - split; auto.
    - split; [discriminate|]. intros [H|[-> _]]; [discriminate|]. rewrite (cmp_refl T) in E. discriminate.
  Qed.

  (** ** Sources *)
  Definition slist (t : table) (s : option nat) : list entry :=
    match s with
    | Some j => match nth_error (t_blocks t) j with Some b => bheads kcmp b | None => [] end
    | None => map (fun x : K * (V * N) => ((fst x, snd (snd x)), fst (snd x))) (t_idx t)
    end.

  Lemma src_block t j b : lookup_ok t -> nth_error (t_blocks t) j = Some b -> block_ok kcmp b.
  Proof.
    intros L H. destruct (lo_blocks L) as (F & _). rewrite Forall_forall in F. apply F. eapply nth_error_In; eauto.
  Qed.

  Lemma mem_at_nth t pos : mem_at t pos = nth_error (slist t None) pos.
  Proof.
    unfold mem_at, slist. rewrite nth_error_map. destruct (nth_error (t_idx t) pos) as [(k, (v, n))|]; auto.
  Qed.
  Lemma src_at_nth t s pos : lookup_ok t -> src_at t s pos = nth_error (slist t s) pos.
  Proof.
    intros L. destruct s as [j|]; [|apply mem_at_nth]. unfold src_at, slist.
    destruct (nth_error (t_blocks t) j) as [b|] eqn:E; [|destruct pos; auto].
    apply entry_at_heads. eapply src_block; eauto.
  Qed.
  Lemma src_size_length t s : lookup_ok t -> src_size t s = length (slist t s).
  Proof.
    intros L. destruct s as [j|]; unfold src_size, slist; [|rewrite map_length; auto].
    destruct (nth_error (t_blocks t) j) as [b|] eqn:E; auto. apply (index_length (kcmp := kcmp)). eapply src_block; eauto.
  Qed.

  Lemma slist_sorted t s : lookup_ok t -> StronglySorted klt (map (@ekey K V) (slist t s)).
  Proof.
    intros L. destruct s as [j|]; unfold slist.
    - destruct (nth_error (t_blocks t) j) as [b|] eqn:E; [|constructor].
      apply (bheads_sorted TK). eapply src_block; eauto.
    - rewrite map_map. destruct (lo_idx L) as (S & _). exact S.
  Qed.

  Lemma slist_nth_lt t s i j a c : lookup_ok t -> (i < j)%nat ->
    nth_error (slist t s) i = Some a -> nth_error (slist t s) j = Some c -> klt (ekey a) (ekey c).
  Proof.
    intros L H A C. eapply (sorted_nth_lt (slist_sorted t s L) H); apply nth_map; auto.
  Qed.

  Lemma slist_key_fun t s a c : lookup_ok t -> In a (slist t s) -> In c (slist t s) -> ekey a = ekey c -> a = c.
  Proof.
    intros L A C E. apply In_nth_error in A, C. destruct A as (i & A), C as (j & C).
    destruct (Nat.lt_trichotomy i j) as [H|[->|H]]; [|congruence|].
    - pose proof (slist_nth_lt _ _ _ _ _ _ L H A C) as X. rewrite E in X. exfalso. eapply klt_irrefl; eauto.
    - pose proof (slist_nth_lt _ _ _ _ _ _ L H C A) as X. rewrite E in X. exfalso. eapply klt_irrefl; eauto.
  Qed.

  Lemma slist_content t s e : In e (slist t s) -> lookup_ok t -> In e (content t).
  Proof.
    intros H L. unfold content. apply in_or_app. destruct s as [j|]; unfold slist in H.
    - destruct (nth_error (t_blocks t) j) as [b|] eqn:E; [|destruct H]. left.
      unfold bentries. apply in_flat_map. exists b. split; [eapply nth_error_In; eauto|]. eapply heads_In; eauto.
    - right. apply in_map_iff in H. destruct H as ((k, (v, n)) & <- & H). simpl.
      destruct (lo_idx L) as (_ & HI). apply HI in H. tauto.
  Qed.

  (** every record is overshadowed by a record of a source with the same key *)
  Lemma content_slist t k n v : lookup_ok t -> In ((k, n), v) (content t) ->
    exists s e, In e (slist t s) /\ ekey e = k /\ n <= ever e.
  Proof.
    intros L H. unfold content in H. apply in_app_or in H. destruct H as [H|H].
    - unfold bentries in H. apply in_flat_map in H. destruct H as (b & Hb & He).
      apply In_nth_error in Hb. destruct Hb as (j & Hj).
      pose proof (src_block _ _ _ L Hj) as B. pose proof (bo_sorted B) as S.
      exists (Some j). unfold slist. rewrite Hj. unfold bheads.
      clear - TK S He. set (prev := @None K). assert (P : match prev with Some p => k <> p | None => True end) by exact Logic.I.
      clearbody prev. revert prev P. induction (b_entries b) as [|x es IH]; intros prev P; [destruct He|].
      destruct (esorted_cons_inv TK S) as (S' & G). cbn [heads].
      destruct (keqb (ekey x) k) eqn:Ek.
      + apply (keqb_eq TK) in Ek.
        assert (Hx : n <= ever x).
        { destruct He as [->|He]; [unfold ever; simpl; lia|]. apply G in He. unfold ekey in *; simpl in *.
          destruct He as [He|[_ He]].
          - rewrite Ek in He. exfalso. eapply klt_irrefl; eauto.
          - unfold ever in *; simpl in *. lia. }
        exists x. split; [|split; auto]. destruct prev as [p|]; [|left; auto].
        assert (keqb (ekey x) p = false) as -> by (apply (keqb_neq TK); congruence). left; auto.
      + apply (keqb_neq TK) in Ek. destruct He as [->|He]; [exfalso; apply Ek; reflexivity|].
        destruct (IH He S' (Some (ekey x)) (fun E => Ek (eq_sym E))) as (e & I & E1 & E2).
        exists e. split; auto. destruct prev as [p|]; [destruct (keqb (ekey x) p)|]; auto; right; auto.
    - exists None. destruct (lo_idx L) as (SI & HI).
      pose proof (@find_mem_newest K V kcmp TK t k u32max (lo_mem L)) as HM.
      destruct (find_mem kcmp t k u32max) as [v0|].
      + destruct HM as (n0 & I0 & L0 & M0). exists ((k, n0), v0). split; [|split; auto].
        * unfold slist. apply in_map_iff. exists (k, (v0, n0)). split; auto. apply HI. split; auto.
          intros n' v' H'. apply (M0 n' v' H'). pose proof (lo_u32 L _ H') as X. unfold ever in X; simpl in X. lia.
        * unfold ever; simpl. apply (M0 n v H). pose proof (lo_u32 L _ H) as X. unfold ever in X; simpl in X. lia.
      + exfalso. apply HM in H as X. pose proof (lo_u32 L _ H) as Y. unfold ever in Y; simpl in Y. lia.
  Qed.

  Lemma slist_ver t j b e : lookup_ok t -> nth_error (t_blocks t) j = Some b -> In e (slist t (Some j)) -> b_min b <= ever e <= b_max b.
  Proof.
    intros L Hj H. unfold slist in H. rewrite Hj in H. apply heads_In in H. eapply bo_range; eauto. eapply src_block; eauto.
  Qed.
  Lemma slist_mem_ver t e : lookup_ok t -> In e (slist t None) -> In e (t_mem t).
  Proof.
    intros L H. unfold slist in H. apply in_map_iff in H. destruct H as ((k, (v, n)) & <- & H). simpl.
    destruct (lo_idx L) as (_ & HI). apply HI in H. tauto.
  Qed.
  Lemma sorted_nth {A} (R : A -> A -> Prop) l i j a c : StronglySorted R l -> (i < j)%nat ->
    nth_error l i = Some a -> nth_error l j = Some c -> R a c.
  Proof.
    intros S. revert i j. induction S as [|x l S IH F]; intros i j L Hi Hj; [destruct i; discriminate|].
    destruct j as [|j]; [lia|]. simpl in Hj. destruct i as [|i]; simpl in Hi.
    - injection Hi as ->. rewrite Forall_forall in F. apply F. eapply nth_error_In; eauto.
    - eapply IH; [|eauto|eauto]. lia.
  Qed.

  (** records of different sources have different versions *)
  Lemma slist_disjoint t s1 s2 e1 e2 : lookup_ok t -> In e1 (slist t s1) -> In e2 (slist t s2) -> ever e1 = ever e2 -> s1 = s2.
  Proof.
    intros L H1 H2 E.
    assert (X : forall j e e', In e (slist t (Some j)) -> In e' (slist t None) -> ever e = ever e' -> False).
    { intros j e e' H H' E'. apply (slist_mem_ver _ _ L) in H'.
      destruct (nth_error (t_blocks t) j) as [b|] eqn:Hj; [|unfold slist in H; rewrite Hj in H; destruct H].
      pose proof (slist_ver _ _ _ _ L Hj H). pose proof (lo_ver L b _ (nth_error_In _ _ Hj) H'). lia. }
    destruct s1 as [j1|], s2 as [j2|]; auto; try (exfalso; eauto; fail).
    f_equal.
    destruct (nth_error (t_blocks t) j1) as [b1|] eqn:E1; [|unfold slist in H1; rewrite E1 in H1; destruct H1].
    destruct (nth_error (t_blocks t) j2) as [b2|] eqn:E2; [|unfold slist in H2; rewrite E2 in H2; destruct H2].
    pose proof (slist_ver _ _ _ _ L E1 H1). pose proof (slist_ver _ _ _ _ L E2 H2).
    destruct (lo_blocks L) as (_ & S).
    destruct (Nat.lt_trichotomy j1 j2) as [G|[G|G]]; auto.
    - pose proof (sorted_nth _ _ _ _ _ _ S G E1 E2) as B. unfold blt in B. lia.
    - pose proof (sorted_nth _ _ _ _ _ _ S G E2 E1) as B. unfold blt in B. lia.
  Qed.

  (** ** The map holds one cursor per source *)
  Definition curs := option nat -> option (nat * entry).
  Definition src_dec : forall a b : option nat, {a = b} + {a <> b}.
  Proof. decide equality. apply Nat.eq_dec. Defined.
  Definition upd (F : curs) (s : option nat) (o : option (nat * entry)) : curs := fun s' => if src_dec s' s then o else F s'.

  Record rep (d : dir) (t : table) (m : list ((K * N) * pointer)) (F : curs) : Prop := {
    rp_sorted : asorted (bmcmp d) m;
    rp_In : forall kv p, In (kv, p) m <-> exists e, F (p_block p) = Some (p_pos p, e) /\ kv = fst e /\ p_value p = snd e;
    rp_at : forall s pos e, F s = Some (pos, e) -> nth_error (slist t s) pos = Some e
  }.

  Lemma rep_nil d t : rep d t [] (fun _ => None).
  Proof.
    split; [constructor| |discriminate]. intros kv p; split; [intros []|]. intros (e & H & _). discriminate.
  Qed.

  Lemma rep_uniq d t m F s1 s2 p1 p2 e1 e2 : lookup_ok t -> rep d t m F -> F s1 = Some (p1, e1) -> F s2 = Some (p2, e2) ->
    fst e1 = fst e2 -> s1 = s2.
  Proof.
    intros L R H1 H2 E. apply (slist_disjoint t s1 s2 e1 e2 L).
    - eapply nth_error_In. eapply rp_at; eauto.
    - eapply nth_error_In. eapply rp_at; eauto.
    - unfold ever. congruence.
  Qed.

  Lemma ptr_eta (p : pointer) : p = mk_ptr (p_block p) (p_pos p) (p_value p).
  Proof. destruct p; auto. Qed.

  Lemma rep_put d t m F s pos e : lookup_ok t -> rep d t m F -> F s = None -> nth_error (slist t s) pos = Some e ->
    rep d t (bm_put kcmp d e s pos m) (upd F s (Some (pos, e))).
  Proof.
    intros L R HF He. pose proof (bmcmp_total d) as T. unfold bm_put. split.
    - apply aset_sorted; auto. apply (rp_sorted _ _ _ _ R).
    - intros kv p. rewrite aset_In by (auto; apply (rp_sorted _ _ _ _ R)). rewrite (rp_In _ _ _ _ R). unfold upd. split.
      + intros [(-> & ->)|(Hne & e' & A & B & C)]; simpl.
        * destruct (src_dec s s); [|congruence]. eauto.
        * destruct (src_dec (p_block p) s) as [E|]; [congruence|]. eauto.
      + intros (e' & A & B & C). destruct (src_dec (p_block p) s) as [E|E].
        * injection A as A1 A2. subst. left. split; auto. destruct p; simpl in *; congruence.
        * right. split; [|eauto]. intros X. apply E. apply (slist_disjoint t _ _ e' e L).
          -- eapply nth_error_In. eapply rp_at; eauto.
          -- eapply nth_error_In; eauto.
          -- unfold ever. congruence.
    - intros s' pos' e'. unfold upd. destruct (src_dec s' s) as [->|]; [intros [= <- <-]; auto|]. apply (rp_at _ _ _ _ R).
  Qed.

  Lemma erase_In d kv (m : list ((K * N) * pointer)) kv' p' : In (kv', p') (bm_erase kcmp d kv m) <-> In (kv', p') m /\ kv' <> kv.
  Proof.
    unfold bm_erase. rewrite filter_In. simpl. pose proof (bmcmp_total d) as T.
    destruct (bmcmp d kv kv') eqn:E.
    - apply (tc_eq T) in E. split; [intros (_ & ?); discriminate|]. intros (_ & ?). congruence.
    - split; intros (A & B); split; auto. intros ->. rewrite (cmp_refl T) in E. discriminate.
    - split; intros (A & B); split; auto. intros ->. rewrite (cmp_refl T) in E. discriminate.
  Qed.

  Lemma rep_erase d t m F s pos e : lookup_ok t -> rep d t m F -> F s = Some (pos, e) ->
    rep d t (bm_erase kcmp d (fst e) m) (upd F s None).
  Proof.
    intros L R HF. split.
    - apply asorted_filter. apply (rp_sorted _ _ _ _ R).
    - intros kv p. rewrite erase_In, (rp_In _ _ _ _ R). unfold upd. split.
      + intros ((e' & A & B & C) & Hne). destruct (src_dec (p_block p) s) as [E|]; [|eauto].
        exfalso. apply Hne. rewrite E in A. congruence.
      + intros (e' & A & B & C). destruct (src_dec (p_block p) s) as [E|E]; [discriminate|]. split; [eauto|].
        intros X. apply E. eapply (rep_uniq d t m F _ _ _ _ e' e L R A HF). congruence.
    - intros s' pos' e'. unfold upd. destruct (src_dec s' s) as [->|]; [discriminate|]. apply (rp_at _ _ _ _ R).
  Qed.

  Lemma rep_ext d t m F G : (forall s, F s = G s) -> rep d t m F -> rep d t m G.
  Proof.
    intros E R. split; [apply (rp_sorted _ _ _ _ R)| |].
    - intros kv p. rewrite (rp_In _ _ _ _ R), E. tauto.
    - intros s pos e. rewrite <- E. apply (rp_at _ _ _ _ R).
  Qed.

  (** putting the next record and erasing the old one *)
  Lemma rep_move d t m F s pos e pos' e' : lookup_ok t -> rep d t m F -> F s = Some (pos, e) ->
    nth_error (slist t s) pos' = Some e' -> fst e <> fst e' ->
    rep d t (bm_erase kcmp d (fst e) (bm_put kcmp d e' s pos' m)) (upd F s (Some (pos', e'))).
  Proof.
    intros L R HF He Hne. pose proof (bmcmp_total d) as T. split.
    - apply asorted_filter. unfold bm_put. apply aset_sorted; auto. apply (rp_sorted _ _ _ _ R).
    - intros kv p. rewrite erase_In. unfold bm_put. rewrite aset_In by (auto; apply (rp_sorted _ _ _ _ R)).
      rewrite (rp_In _ _ _ _ R). unfold upd. split.
      + intros ([(-> & ->)|(H1 & x & A & B & C)] & H2); simpl.
        * destruct (src_dec s s); [|congruence]. eauto.
        * destruct (src_dec (p_block p) s) as [E|]; [|eauto]. exfalso. apply H2. rewrite E in A. congruence.
      + intros (x & A & B & C). destruct (src_dec (p_block p) s) as [E|E].
        * injection A as A1 A2. subst. split; [|congruence]. left. split; auto. destruct p; simpl in *; congruence.
        * split.
          -- right. split; [|eauto]. intros X. apply E. apply (slist_disjoint t _ _ x e' L).
             ++ eapply nth_error_In. eapply rp_at; eauto.
             ++ eapply nth_error_In; eauto.
             ++ unfold ever. congruence.
          -- intros X. apply E. eapply (rep_uniq d t m F _ _ _ _ x e L R A HF). congruence.
    - intros s' q x. unfold upd. destruct (src_dec s' s) as [->|]; [intros [= <- <-]; auto|]. apply (rp_at _ _ _ _ R).
  Qed.

  (** ** Cursors at the first record still to come *)
  Definition isfirst (d : dir) (R : K -> Prop) (l : list entry) (o : option (nat * entry)) : Prop :=
    match o with
    | Some (pos, e) => nth_error l pos = Some e /\ R (ekey e) /\
        forall e', In e' l -> R (ekey e') -> ekey e' = ekey e \/ dlt d (ekey e) (ekey e')
    | None => forall e, In e l -> ~ R (ekey e)
    end.
  Definition closed (d : dir) (R : K -> Prop) := forall x y, R x -> dlt d x y -> R y.

  (** [at_ d t R m]: the map holds, for every source, its first record whose key is in [R] *)
  Definition at_ (d : dir) (t : table) (R : K -> Prop) (m : list ((K * N) * pointer)) : Prop :=
    exists F, rep d t m F /\ forall s, isfirst d R (slist t s) (F s).

  Lemma at_nil d t R m : at_ d t R m -> m = [] -> forall s e, In e (slist t s) -> ~ R (ekey e).
  Proof.
    intros (F & Rp & A) -> s e He HR. specialize (A s). destruct (F s) as [(pos, x)|] eqn:E.
    - destruct A as (A1 & _). apply (rp_In _ _ _ _ Rp (fst x) (mk_ptr s pos (snd x))). simpl. eauto.
    - eapply A; eauto.
  Qed.

  Lemma at_head d t R k n p tl : lookup_ok t -> at_ d t R (((k, n), p) :: tl) ->
    R k /\ In ((k, n), p_value p) (slist t (p_block p)) /\
    (forall s e, In e (slist t s) -> R (ekey e) -> (ekey e = k /\ ever e <= n) \/ dlt d k (ekey e)).
  Proof.
    intros L (F & Rp & A).
    assert (H : In ((k, n), p) (((k, n), p) :: tl)) by (left; auto).
    apply (rp_In _ _ _ _ Rp) in H. destruct H as (e & H1 & H2 & H3).
    assert (He : e = ((k, n), p_value p)) by (destruct e; simpl in *; congruence).
    pose proof (rp_at _ _ _ _ Rp _ _ _ H1) as H4. pose proof (A (p_block p)) as A0. rewrite H1 in A0.
    destruct A0 as (_ & A1 & _). subst e. unfold ekey in A1; simpl in A1. split; auto. split; [eapply nth_error_In; eauto|].
    intros s e He HR. pose proof (A s) as As. destruct (F s) as [(pos, x)|] eqn:E; [|exfalso; eapply As; eauto].
    destruct As as (B1 & B2 & B3).
    assert (Hx : ((k, n), p) = (fst x, mk_ptr s pos (snd x)) \/ OrdLib.klt (bmcmp d) (k, n) (fst x)).
    { assert (Hin : In (fst x, mk_ptr s pos (snd x)) (((k, n), p) :: tl)) by (apply (rp_In _ _ _ _ Rp); simpl; eauto).
      destruct Hin as [Hin|Hin]; auto. right. destruct (asorted_cons_inv (rp_sorted _ _ _ _ Rp)) as (_ & G). eapply G; eauto. }
    assert (Hk : (ekey x = k /\ ever x <= n) \/ dlt d k (ekey x)).
    { destruct Hx as [Hx|Hx].
      - injection Hx as Hx _. left. unfold ekey, ever. rewrite <- Hx. simpl. split; auto. lia.
      - destruct x as ((kx, nx), vx). simpl in Hx. apply bmlt in Hx. unfold ekey, ever; simpl. destruct Hx as [Hx|(-> & Hx)]; auto.
        left. split; auto. lia. }
    destruct (B3 e He HR) as [B|B].
    - assert (e = x) by (apply (slist_key_fun t s e x L He (nth_error_In _ _ B1) B)). subst x. auto.
    - right. destruct Hk as [(<- & _)|Hk]; auto. eapply dlt_trans; eauto.
  Qed.

  (** the value of the head is the newest of its key *)
  Lemma at_find d t R k n p tl : lookup_ok t -> at_ d t R (((k, n), p) :: tl) -> find kcmp t k u32max = Some (p_value p).
  Proof.
    intros L A. destruct (at_head _ _ _ _ _ _ _ L A) as (H1 & H2 & H3).
    pose proof (slist_content _ _ _ H2 L) as HC.
    eapply newest_fun; [| apply (find_newest TK); auto|].
    - intros n' v1 v2 X Y. eapply (content_fun TK); eauto.
    - assert (HU : forall n' v', In ((k, n'), v') (content t) -> n' <= n).
      { intros n' v' H. destruct (content_slist _ _ _ _ L H) as (s & e & E1 & E2 & E3).
        destruct (H3 s e E1) as [(_ & X)|X]; [rewrite E2; auto|lia|]. rewrite E2 in X. exfalso. eapply dlt_irrefl; eauto. }
      exists n. split; auto. split; [|intros; eauto].
      destruct (p_block p) as [j|] eqn:Ep.
      + destruct (nth_error (t_blocks t) j) as [b|] eqn:Ej; [|unfold slist in H2; rewrite Ej in H2; destruct H2].
        pose proof (slist_ver _ _ _ _ L Ej H2) as X. pose proof (bo_u32 (src_block _ _ _ L Ej)). unfold ever in X; simpl in X. lia.
      + pose proof (slist_mem_ver _ _ L H2) as X. apply (lo_u32 L) in X. unfold ever in X; simpl in X. lia.
  Qed.

  Lemma find_slist t k v : lookup_ok t -> find kcmp t k u32max = Some v -> exists s e, In e (slist t s) /\ ekey e = k.
  Proof.
    intros L H. pose proof (find_newest TK k u32max L) as X. rewrite H in X. destruct X as (n & I & _).
    destruct (content_slist _ _ _ _ L I) as (s & e & A & B & _). eauto.
  Qed.
  Lemma slist_find t s e : lookup_ok t -> In e (slist t s) -> find kcmp t (ekey e) u32max <> None.
  Proof.
    intros L H E. pose proof (find_newest TK (ekey e) u32max L) as X. rewrite E in X.
    pose proof (slist_content _ _ _ H L) as HC. destruct e as ((k, n), v). apply X in HC as Y.
    destruct s as [j|].
    - destruct (nth_error (t_blocks t) j) as [b|] eqn:Ej; [|unfold slist in H; rewrite Ej in H; destruct H].
      pose proof (slist_ver _ _ _ _ L Ej H) as Z. pose proof (bo_u32 (src_block _ _ _ L Ej)). unfold ever in Z; simpl in Z. lia.
    - pose proof (slist_mem_ver _ _ L H) as Z. apply (lo_u32 L) in Z. unfold ever in Z; simpl in Z. lia.
  Qed.

  (** ** One step *)
  Lemma succ_none d t s pos e : lookup_ok t -> nth_error (slist t s) pos = Some e ->
    succ_pos d (src_size t s) pos = None -> forall e', In e' (slist t s) -> ~ dlt d (ekey e) (ekey e').
  Proof.
    intros L He H e' He' Hlt. rewrite src_size_length in H by auto. apply In_nth_error in He'. destruct He' as (i & Hi).
    assert (Hb : (i < length (slist t s))%nat) by (apply nth_error_Some; congruence).
    destruct (Nat.lt_trichotomy i pos) as [G|[G|G]].
    - destruct d; simpl in *.
      + pose proof (slist_nth_lt _ _ _ _ _ _ L G Hi He). eapply klt_asym; eauto.
      + destruct pos; [lia|discriminate].
    - subst. assert (e' = e) by congruence. subst. eapply dlt_irrefl; eauto.
    - destruct d; simpl in *.
      + destruct (Nat.ltb_spec (pos + 1) (length (slist t s))); [discriminate|lia].
      + pose proof (slist_nth_lt _ _ _ _ _ _ L G He Hi). eapply klt_asym; eauto.
  Qed.
  Lemma succ_some d t s pos e pos' : lookup_ok t -> nth_error (slist t s) pos = Some e ->
    succ_pos d (src_size t s) pos = Some pos' -> exists e', nth_error (slist t s) pos' = Some e' /\ dlt d (ekey e) (ekey e') /\
      forall x, In x (slist t s) -> dlt d (ekey e) (ekey x) -> ekey x = ekey e' \/ dlt d (ekey e') (ekey x).
  Proof.
    intros L He H. rewrite src_size_length in H by auto.
    assert (Hp : (pos < length (slist t s))%nat) by (apply nth_error_Some; congruence).
    assert (Hp' : (pos' < length (slist t s))%nat /\ pos' = (match d with Fwd => pos + 1 | Bwd => pos - 1 end)%nat /\ (d = Bwd -> pos > 0)%nat).
    { destruct d; simpl in H.
      - destruct (Nat.ltb_spec (pos + 1) (length (slist t s))); [|discriminate]. injection H as <-. repeat split; auto. discriminate.
      - destruct pos as [|q]; [discriminate|]. injection H as <-. repeat split; lia. }
    destruct Hp' as (B1 & B2 & B3).
    destruct (nth_error (slist t s) pos') as [e'|] eqn:E'; [|apply nth_error_None in E'; lia].
    exists e'. split; auto. split.
    - destruct d; simpl.
      + eapply (slist_nth_lt t s pos pos'); eauto. lia.
      + eapply (slist_nth_lt t s pos' pos); eauto. specialize (B3 eq_refl). lia.
    - intros x Hx Hlt. apply In_nth_error in Hx. destruct Hx as (i & Hi).
      destruct (Nat.lt_trichotomy i pos') as [G|[G|G]]; [|left; congruence|].
      + destruct d; simpl in *.
        * exfalso. destruct (Nat.eq_dec i pos) as [->|].
          -- assert (x = e) by congruence. subst. eapply klt_irrefl; eauto.
          -- assert (i < pos)%nat by lia. pose proof (slist_nth_lt _ _ _ _ _ _ L H0 Hi He). eapply klt_asym; eauto.
        * right. apply (slist_nth_lt _ _ _ _ _ _ L G Hi E').
      + destruct d; simpl in *.
        * right. apply (slist_nth_lt _ _ _ _ _ _ L G E' Hi).
        * exfalso. specialize (B3 eq_refl). destruct (Nat.eq_dec i pos) as [->|].
          -- assert (x = e) by congruence. subst. eapply klt_irrefl; eauto.
          -- assert (pos < i)%nat by lia. pose proof (slist_nth_lt _ _ _ _ _ _ L H0 He Hi). eapply klt_asym; eauto.
  Qed.

  Definition kcount (k : K) (m : list ((K * N) * pointer)) : nat := length (filter (fun x => keqb (fst (fst x)) k) m).

  (** during the loop: every cursor is at its first record of [R], or has already moved on *)
  Definition mid (d : dir) (t : table) (R : K -> Prop) (k : K) (m : list ((K * N) * pointer)) : Prop :=
    exists F, rep d t m F /\
      forall s, isfirst d R (slist t s) (F s) \/ isfirst d (fun x => R x /\ dlt d k x) (slist t s) (F s).

  Lemma mid_key d t (R : K -> Prop) k m : (forall s e, In e (slist t s) -> R (ekey e) -> ekey e = k \/ dlt d k (ekey e)) -> mid d t R k m ->
    forall kv p, In (kv, p) m -> fst kv = k \/ dlt d k (fst kv).
  Proof.
    intros Min (F & Rp & A) kv p H. apply (rp_In _ _ _ _ Rp) in H. destruct H as (e & H1 & H2 & H3). subst kv.
    specialize (A (p_block p)). rewrite H1 in A. fold (ekey e). destruct A as [(A1 & A2 & _)|(A1 & (A2 & A2') & _)]; auto.
    eapply Min; eauto. eapply nth_error_In; eauto.
  Qed.

  Lemma mid_done d t (R : K -> Prop) k m : (forall s e, In e (slist t s) -> R (ekey e) -> ekey e = k \/ dlt d k (ekey e)) ->
    mid d t R k m -> (forall kv p, In (kv, p) m -> fst kv <> k) -> at_ d t (fun x => R x /\ dlt d k x) m.
  Proof.
    intros Min M Hne. pose proof (mid_key _ _ _ _ _ Min M) as MK. destruct M as (F & Rp & A). exists F. split; auto.
    intros s. destruct (A s) as [B|B]; auto. destruct (F s) as [(pos, e)|] eqn:E; simpl in *.
    - destruct B as (B1 & B2 & B3). split; auto.
      assert (Hin : In (fst e, mk_ptr s pos (snd e)) m) by (apply (rp_In _ _ _ _ Rp); simpl; eauto).
      split.
      + split; auto. apply MK in Hin as X. destruct X as [X|X]; auto. exfalso. eapply Hne; eauto.
      + intros e' He' (X & _). auto.
    - intros e He (X & _). eapply B; eauto.
  Qed.

  Lemma kcount_erase d k n m kv' : asorted (bmcmp d) m -> In kv' m -> fst kv' = (k, n) ->
    S (kcount k (bm_erase kcmp d (k, n) m)) = kcount k m.
  Proof.
    pose proof (bmcmp_total d) as T. unfold kcount, bm_erase. induction m as [|(kv, p) m IH]; intros S H E; [destruct H|].
    destruct (asorted_cons_inv S) as (S' & G). simpl. destruct H as [H|H].
    - subst kv'. simpl in E. subst kv. rewrite (cmp_refl T). simpl. rewrite (keqb_refl TK). simpl. f_equal. f_equal.
      f_equal. clear - G T. assert (X : forall x, In x m -> (match bmcmp d (k, n) (fst x) with Eq => false | _ => true end) = true).
      { intros (k', p') Hx. apply G in Hx. simpl. unfold OrdLib.klt in Hx. rewrite Hx. auto. }
      clear G. induction m as [|a m IH]; simpl; auto. rewrite (X a) by (left; auto). f_equal. apply IH. intros; apply X; right; auto.
    - assert (Hk : bmcmp d (k, n) kv <> Eq).
      { intros X. apply (tc_eq T) in X. subst kv. destruct kv' as (k', p'). simpl in E. subst k'. apply G in H. eapply klt_irrefl; eauto. }
      destruct (bmcmp d (k, n) kv) eqn:X; [congruence| |]; simpl; destruct (keqb (fst kv) k); simpl; rewrite <- (IH S' H E); auto.
  Qed.
  Lemma kcount_put d k e s pos m : asorted (bmcmp d) m -> ekey e <> k -> kcount k (bm_put kcmp d e s pos m) = kcount k m.
  Proof.
    pose proof (bmcmp_total d) as T. intros S Hne. apply (keqb_neq TK) in Hne. unfold ekey in Hne. unfold kcount, bm_put.
    induction m as [|(kv, p) m IH]; simpl; [rewrite Hne; auto|].
    destruct (asorted_cons_inv S) as (S' & G).
    destruct (bmcmp d (fst e) kv) eqn:X; simpl.
    - apply (tc_eq T) in X. subst kv. rewrite Hne. auto.
    - rewrite Hne. destruct (keqb (fst kv) k); auto.
    - destruct (keqb (fst kv) k); simpl; rewrite (IH S'); auto.
  Qed.

  Lemma loop_ok d t (R : K -> Prop) k : lookup_ok t -> closed d R -> R k ->
    (forall s e, In e (slist t s) -> R (ekey e) -> ekey e = k \/ dlt d k (ekey e)) ->
    forall fuel m, (kcount k m <= fuel)%nat -> mid d t R k m ->
    exists m', step_loop kcmp fuel d t k m = Some m' /\ at_ d t (fun x => R x /\ dlt d k x) m'.
  Proof.
    intros L CR Rk Min. induction fuel as [|fuel IH]; intros m Hf M.
    - destruct m as [|((k0, n0), p) tl]; simpl.
      + exists []. split; auto. eapply mid_done; eauto; intros ? ? [].
      + destruct (keqb k0 k) eqn:Ek.
        * unfold kcount in Hf. simpl in Hf. rewrite Ek in Hf. simpl in Hf. lia.
        * eexists. split; [reflexivity|]. eapply mid_done; eauto. intros kv q Hin E.
          assert (X : In (kv, q) (filter (fun x => keqb (fst (fst x)) k) (((k0, n0), p) :: tl))).
          { apply filter_In. split; auto. simpl. apply (keqb_eq TK); auto. }
          unfold kcount in Hf. destruct (filter _ _); [destruct X|simpl in Hf; lia].
    - destruct m as [|((k0, n0), p) tl] eqn:Em.
      { simpl. exists []. split; auto. eapply mid_done; eauto; intros ? ? []. }
      cbn [step_loop fst]. destruct (keqb k0 k) eqn:Ek.
      + apply (keqb_eq TK) in Ek. subst k0. rewrite <- Em in *.
        assert (Hin0 : In ((k, n0), p) m) by (rewrite Em; left; auto).
        destruct M as (F & Rp & A).
        pose proof Hin0 as Hin. apply (rp_In _ _ _ _ Rp) in Hin. destruct Hin as (e & H1 & H2 & H3).
        assert (Ke : ekey e = k) by (unfold ekey; rewrite <- H2; auto).
        pose proof (rp_at _ _ _ _ Rp _ _ _ H1) as H4.
        unfold step_one.
        destruct (succ_pos d (src_size t (p_block p)) (p_pos p)) as [pos'|] eqn:Sp.
        * destruct (succ_some _ _ _ _ _ _ L H4 Sp) as (e' & E1 & E2 & E3).
          rewrite src_at_nth by auto. rewrite E1.
          assert (Hne : fst e <> fst e').
          { intros X. unfold ekey in E2. rewrite X in E2. eapply dlt_irrefl; eauto. }
          pose proof (rep_move d t m F _ _ e _ e' L Rp H1 E1 Hne) as Rp'.
          rewrite H2. apply IH.
          -- destruct e as ((ke, ne), ve). unfold ekey in Ke. simpl in Ke. subst ke. simpl in *.
             assert (X : S (kcount k (bm_erase kcmp d (k, ne) (bm_put kcmp d e' (p_block p) pos' m))) = kcount k m).
             { rewrite <- (kcount_put d k e' (p_block p) pos' m (rp_sorted _ _ _ _ Rp)).
               - eapply kcount_erase with (kv' := ((k, ne), p)); auto.
                 + unfold bm_put. apply aset_sorted; [apply bmcmp_total|]. apply (rp_sorted _ _ _ _ Rp).
                 + unfold bm_put. apply aset_In; [apply bmcmp_total|apply (rp_sorted _ _ _ _ Rp)|]. right. split; auto.
                   rewrite <- H2. auto.
               - intros X. rewrite X in E2. unfold ekey in E2 at 1; simpl in E2. eapply dlt_irrefl; eauto. }
             lia.
          -- exists (upd F (p_block p) (Some (pos', e'))). split; auto. intros s. unfold upd.
             destruct (src_dec s (p_block p)) as [->|]; auto. right. simpl. split; auto. rewrite Ke in *. split.
             ++ split; auto. eapply CR; eauto.
             ++ intros x Hx (_ & X). auto.
        * pose proof (rep_erase d t m F _ _ e L Rp H1) as Rp'. rewrite H2. apply IH.
          -- destruct e as ((ke, ne), ve). unfold ekey in Ke. simpl in Ke. subst ke. simpl in *.
             assert (X : S (kcount k (bm_erase kcmp d (k, ne) m)) = kcount k m).
             { eapply kcount_erase with (kv' := ((k, ne), p)); auto; [apply (rp_sorted _ _ _ _ Rp)|]. rewrite <- H2. auto. }
             lia.
          -- exists (upd F (p_block p) None). split; auto. intros s. unfold upd.
             destruct (src_dec s (p_block p)) as [->|]; auto. right. simpl. intros x Hx (_ & X). rewrite <- Ke in X.
             eapply succ_none; eauto.
      + eexists. split; [reflexivity|]. eapply mid_done; eauto. apply (keqb_neq TK) in Ek. intros kv q Hin E.
        pose proof (mid_key _ _ _ _ _ Min M ((k0, n0)) p (or_introl eq_refl)) as [X|X]; [simpl in X; congruence|]. simpl in X.
        destruct Hin as [[= <- <-]|Hin]; [simpl in E; congruence|].
        destruct M as (F & Rp & _). destruct (asorted_cons_inv (rp_sorted _ _ _ _ Rp)) as (_ & G).
        apply G in Hin. destruct kv as (k1, n1). simpl in E. subst k1. apply bmlt in Hin.
        destruct Hin as [Hin|(Hin & _)]; [|congruence]. eapply dlt_asym; eauto.
  Qed.

  (** next() while going forward, prev() while going backward *)
  Lemma move_ok d t R k n p tl : lookup_ok t -> closed d R -> at_ d t R (((k, n), p) :: tl) ->
    exists m', it_move kcmp d t (mk_iter (Some d) (((k, n), p) :: tl)) = Some (mk_iter (Some d) m') /\ at_ d t (fun x => R x /\ dlt d k x) m'.
  Proof.
    intros L CR A. destruct (at_head _ _ _ _ _ _ _ L A) as (H1 & H2 & H3).
    assert (Min : forall s e, In e (slist t s) -> R (ekey e) -> ekey e = k \/ dlt d k (ekey e)).
    { intros s e He HR. destruct (H3 s e He HR) as [(X & _)|X]; auto. }
    destruct (loop_ok d t R k L CR H1 Min (length (((k, n), p) :: tl)) (((k, n), p) :: tl)) as (m' & E & A').
    - unfold kcount. generalize (((k, n), p) :: tl). intros l. induction l as [|a l IH]; simpl; auto. destruct (keqb _ _); simpl; lia.
    - destruct A as (F & Rp & A). exists F. split; auto.
    - exists m'. split; auto. cbn [it_move it_dir it_map]. cbn [fst]. destruct d; rewrite E; auto.
  Qed.

  (** ** Seeking *)
  (** the keys a seek leaves to be visited *)
  Definition Rof (key : option K) (md : mode) (x : K) : Prop :=
    match key, md with
    | None, _ => True
    | Some k, MAt => ~ klt x k
    | Some k, MPrev => klt x k
    | Some k, MNext => klt k x
    end.

  Definition turn_ok (t : table) (k : K) (s : option nat) : Prop :=
    forall e, In e (slist t s) -> klt k (ekey e) -> exists e', In e' (slist t s) /\ ekey e' = k.

  Lemma Rof_closed key md : closed (dir_of md) (Rof key md).
  Proof.
    intros x y H Hlt. destruct key as [k|], md; simpl in *; auto.
    - eapply klt_trans; eauto.
    - intros X. apply H. eapply klt_trans; eauto.
    - eapply klt_trans; eauto.
  Qed.

  (** position of a lower bound in a list of records *)
  Definition lbpos (l : list entry) (k : K) (pos : nat) : Prop :=
    (pos <= length l)%nat /\
    (forall i e, (i < pos)%nat -> nth_error l i = Some e -> klt (ekey e) k) /\
    (forall i e, (pos <= i)%nat -> nth_error l i = Some e -> ~ klt (ekey e) k).

  Lemma first_at l k pos : lbpos l k pos -> StronglySorted klt (map (@ekey K V) l) ->
    isfirst Fwd (Rof (Some k) MAt) l (match nth_error l pos with Some e => Some (pos, e) | None => None end).
  Proof.
    intros (A & B & C) S. destruct (nth_error l pos) as [e|] eqn:E; simpl.
    - split; auto. split; [apply (C pos e); auto|]. intros e' He' HR. apply In_nth_error in He'. destruct He' as (i & Hi).
      destruct (Nat.lt_trichotomy i pos) as [G|[G|G]].
      + exfalso. apply HR. apply (B i e'); auto.
      + left. congruence.
      + right. eapply (sorted_nth_lt S G); apply nth_map; auto.
    - intros e He HR. apply In_nth_error in He. destruct He as (i & Hi). apply HR. apply (B i e); auto.
      apply nth_error_None in E. assert (i < length l)%nat by (apply nth_error_Some; congruence). lia.
  Qed.

  Lemma first_prev l k pos : lbpos l k pos -> StronglySorted klt (map (@ekey K V) l) ->
    match pos with
    | O => isfirst Bwd (Rof (Some k) MPrev) l None
    | S p => exists e, nth_error l p = Some e /\ isfirst Bwd (Rof (Some k) MPrev) l (Some (p, e))
    end.
  Proof.
    intros (A & B & C) S. destruct pos as [|p].
    - intros e He HR. apply In_nth_error in He. destruct He as (i & Hi). apply (C i e); auto. lia.
    - destruct (nth_error l p) as [e|] eqn:E; [|apply nth_error_None in E; lia]. exists e. split; auto. split; auto.
      split; [apply (B p e); auto|]. intros e' He' HR. apply In_nth_error in He'. destruct He' as (i & Hi).
      destruct (Nat.lt_trichotomy i p) as [G|[G|G]].
      + right. simpl. eapply (sorted_nth_lt S G); apply nth_map; auto.
      + left. congruence.
      + exfalso. apply (C i e'); auto.
  Qed.

  Lemma first_next l k pos : lbpos l k pos -> StronglySorted klt (map (@ekey K V) l) ->
    (forall e, In e l -> klt k (ekey e) -> exists e', In e' l /\ ekey e' = k) ->
    isfirst Fwd (Rof (Some k) MNext) l (match nth_error l (pos + 1) with Some e => Some ((pos + 1)%nat, e) | None => None end).
  Proof.
    intros (A & B & C) S T.
    assert (X : forall i e, (i <= pos)%nat -> nth_error l i = Some e -> ~ klt k (ekey e)).
    { intros i e Hi E Hlt. destruct (T e (nth_error_In _ _ E) Hlt) as (e' & I' & Ek). apply In_nth_error in I'. destruct I' as (j & Hj).
      destruct (Nat.lt_trichotomy i j) as [G|[G|G]].
      - pose proof (sorted_nth_lt S G (nth_map _ _ _ E) (nth_map _ _ _ Hj)) as Y. rewrite Ek in Y. eapply klt_asym; eauto.
      - assert (e = e') by congruence. subst e'. rewrite Ek in Hlt. eapply klt_irrefl; eauto.
      - assert (J : (j < pos)%nat) by lia. pose proof (B _ _ J Hj) as Y. rewrite Ek in Y. eapply klt_irrefl; eauto. }
    destruct (nth_error l (pos + 1)) as [e|] eqn:E; simpl.
    - split; auto. split.
      + (* strictly above k *)
        assert (Hp : exists e0, nth_error l pos = Some e0).
        { destruct (nth_error l pos) eqn:E0; eauto. apply nth_error_None in E0.
          assert (pos + 1 < length l)%nat by (apply nth_error_Some; congruence). lia. }
        destruct Hp as (e0 & E0). assert (G : (pos < pos + 1)%nat) by lia.
        pose proof (sorted_nth_lt S G (nth_map _ _ _ E0) (nth_map _ _ _ E)) as Y.
        assert (Z : ~ klt (ekey e0) k) by (apply (C pos e0); auto).
        destruct (klt_total TK (ekey e0) k) as [W|[W|W]]; [tauto| |].
        * rewrite <- W. auto.
        * eapply klt_trans; eauto.
      + intros e' He' HR. apply In_nth_error in He'. destruct He' as (i & Hi).
        destruct (Nat.lt_trichotomy i (pos + 1)) as [G|[G|G]].
        * exfalso. eapply (X i); eauto. lia.
        * left. congruence.
        * right. eapply (sorted_nth_lt S G); apply nth_map; auto.
    - intros e He HR. apply In_nth_error in He. destruct He as (i & Hi). eapply (X i); eauto.
      apply nth_error_None in E. assert (i < length l)%nat by (apply nth_error_Some; congruence). lia.
  Qed.

  Lemma first_begin l : StronglySorted klt (map (@ekey K V) l) -> 
    isfirst Fwd (fun _ => True) l (match nth_error l 0 with Some e => Some (0%nat, e) | None => None end).
  Proof.
    intros S. destruct (nth_error l 0) as [e|] eqn:E; simpl.
    - repeat split; auto. intros e' He' _. apply In_nth_error in He'. destruct He' as (i & Hi).
      destruct i as [|i]; [left; congruence|]. right. assert (G : (0 < Datatypes.S i)%nat) by lia.
      eapply (sorted_nth_lt S G); apply nth_map; auto.
    - intros e He _. destruct l; [destruct He|discriminate].
  Qed.
  Lemma first_last l : StronglySorted klt (map (@ekey K V) l) ->
    match length l with
    | O => isfirst Bwd (fun _ => True) l None
    | S p => exists e, nth_error l p = Some e /\ isfirst Bwd (fun _ => True) l (Some (p, e))
    end.
  Proof.
    intros S. destruct (length l) as [|p] eqn:El.
    - intros e He. destruct l; [destruct He|discriminate].
    - destruct (nth_error l p) as [e|] eqn:E; [|apply nth_error_None in E; lia]. exists e. split; auto. repeat split; auto.
      intros e' He' _. apply In_nth_error in He'. destruct He' as (i & Hi).
      assert (i < length l)%nat by (apply nth_error_Some; congruence).
      destruct (Nat.eq_dec i p) as [->|]; [left; congruence|]. right. assert (G : (i < p)%nat) by lia.
      simpl. eapply (sorted_nth_lt S G); apply nth_map; auto.
  Qed.

  Definition md_ok (key : option K) (md : mode) := match key, md with None, MNext => False | _, _ => True end.

  Lemma Rof_None md : Rof None md = fun _ => True.
  Proof. destruct md; auto. Qed.

  Lemma seek_block_ok t j b key md : lookup_ok t -> nth_error (t_blocks t) j = Some b -> md_ok key md ->
    (forall k, key = Some k -> md = MNext -> turn_ok t k (Some j)) ->
    exists o, seek_block kcmp b key md = Some o /\ isfirst (dir_of md) (Rof key md) (slist t (Some j)) o.
  Proof.
    intros L Hj MO T. pose proof (src_block _ _ _ L Hj) as B. pose proof (slist_sorted t (Some j) L) as S.
    assert (Sl : slist t (Some j) = bheads kcmp b) by (unfold slist; rewrite Hj; auto).
    rewrite Sl in *. unfold turn_ok in T. rewrite Sl in T.
    unfold seek_block. rewrite (index_length B).
    destruct key as [k|].
    - destruct (lower_bound_spec TK k B) as (pos & oe & mt & E & H1 & H2 & H3 & H4 & H5). rewrite E.
      assert (LB : lbpos (bheads kcmp b) k pos).
      { split; auto. split; auto. intros i e Hi He Hlt. destruct (Nat.eq_dec i pos) as [->|].
        - rewrite He in H2. destruct mt.
          + destruct H5 as (e0 & Y & Z). assert (e0 = e) by congruence. subst. eapply klt_irrefl; eauto.
          + specialize (H5 e H2). eapply klt_asym; eauto.
        - eapply klt_asym; [apply TK|apply Hlt|]. eapply (H4 i); eauto. lia. }
      destruct md.
      + pose proof (first_prev _ _ _ LB S) as X. destruct pos as [|p]; [eexists; split; [reflexivity|exact X]|].
        destruct X as (e & X1 & X2). rewrite (entry_at_heads p B), X1. eauto.
      + eexists. split; [reflexivity|]. rewrite H2. apply first_at; auto.
      + pose proof (first_next _ _ _ LB S (T k eq_refl eq_refl)) as X.
        destruct (Nat.leb_spec (length (bheads kcmp b)) (pos + 1)) as [Hle|Hgt].
        * eexists. split; [reflexivity|]. assert (nth_error (bheads kcmp b) (pos + 1) = None) as Y by (apply nth_error_None; auto).
          rewrite Y in X. exact X.
        * destruct (nth_error (bheads kcmp b) (pos + 1)) as [e|] eqn:Y; [|apply nth_error_None in Y; lia].
          rewrite (entry_at_heads (pos + 1) B), Y. eauto.
    - rewrite Rof_None. destruct md; [| |destruct MO].
      + pose proof (first_last _ S) as X. destruct (length (bheads kcmp b)) as [|p]; [eexists; split; [reflexivity|exact X]|].
        destruct X as (e & X1 & X2). rewrite (entry_at_heads p B), X1. eauto.
      + eexists. split; [reflexivity|]. rewrite (entry_at_heads 0 B). apply first_begin; auto.
  Qed.

  Lemma lower_pos_lb (t : table) k : lookup_ok t -> lbpos (slist t None) k (lower_pos kcmp k (t_idx t)).
  Proof.
    intros L. destruct (lo_idx L) as (S & _). unfold slist.
    induction (t_idx t) as [|(k0, (v0, n0)) l IH]; simpl.
    - split; auto. split; intros i e H H'; [lia|]. destruct i; discriminate.
    - destruct (asorted_cons_inv S) as (S' & G). specialize (IH S'). destruct IH as (A & B & C).
      destruct (kcmp k0 k) eqn:E.
      + apply (tc_eq TK) in E. subst k0. split; [lia|]. split; [intros; lia|]. intros [|i] e _ He; simpl in He.
        * injection He as <-. unfold ekey; simpl. apply klt_irrefl; auto.
        * apply nth_error_In in He. apply in_map_iff in He. destruct He as ((k1, (v1, n1)) & <- & He). apply G in He.
          unfold ekey; simpl. intros X. eapply klt_asym; eauto.
      + split; [simpl; lia|]. split.
        * intros [|i] e Hi He; simpl in He; [injection He as <-; exact E|]. apply (B i e); auto. lia.
        * intros [|i] e Hi He; simpl in He; [lia|]. apply (C i e); auto. lia.
      + apply (cmp_gt_lt TK) in E. split; [lia|]. split; [intros; lia|]. intros [|i] e _ He; simpl in He.
        * injection He as <-. unfold ekey; simpl. intros X. eapply klt_asym; eauto.
        * apply nth_error_In in He. apply in_map_iff in He. destruct He as ((k1, (v1, n1)) & <- & He). apply G in He.
          unfold ekey; simpl. intros X. eapply klt_asym; [apply TK|apply X|]. eapply klt_trans; eauto.
  Qed.

  Lemma seek_mem_ok t key md : lookup_ok t -> md_ok key md ->
    (forall k, key = Some k -> md = MNext -> turn_ok t k None) ->
    isfirst (dir_of md) (Rof key md) (slist t None) (seek_mem kcmp t key md).
  Proof.
    intros L MO T. pose proof (slist_sorted t None L) as S. unfold seek_mem.
    assert (Hl : length (t_idx t) = length (slist t None)) by (unfold slist; rewrite map_length; auto).
    destruct key as [k|].
    - pose proof (lower_pos_lb t k L) as LB. set (pos := lower_pos kcmp k (t_idx t)) in *. destruct md.
      + pose proof (first_prev _ _ _ LB S) as X. rewrite mem_at_nth. destruct pos as [|p].
        * rewrite Hl. assert (nth_error (slist t None) (length (slist t None)) = None) as -> by (apply nth_error_None; auto). exact X.
        * destruct X as (e & X1 & X2). rewrite X1. exact X2.
      + rewrite mem_at_nth. apply first_at; auto.
      + rewrite mem_at_nth. pose proof (first_next _ _ _ LB S (T k eq_refl eq_refl)) as X.
        destruct (Nat.ltb_spec pos (length (t_idx t))) as [H|H]; auto.
        assert (nth_error (slist t None) pos = None) as -> by (apply nth_error_None; lia).
        assert (nth_error (slist t None) (pos + 1) = None) as Y by (apply nth_error_None; lia). rewrite Y in X. exact X.
    - rewrite Rof_None. destruct md; [| |destruct MO].
      + pose proof (first_last _ S) as X. rewrite mem_at_nth, Hl. destruct (length (slist t None)) as [|p] eqn:El.
        * assert (nth_error (slist t None) 0 = None) as -> by (apply nth_error_None; lia). exact X.
        * destruct X as (e & X1 & X2). rewrite X1. exact X2.
      + rewrite mem_at_nth. apply first_begin; auto.
  Qed.

  Lemma seek_blocks_ok t key md : lookup_ok t -> md_ok key md ->
    (forall k s, key = Some k -> md = MNext -> turn_ok t k s) ->
    forall bs j m F, (forall i b, nth_error bs i = Some b -> nth_error (t_blocks t) (j + i) = Some b) ->
    rep (dir_of md) t m F -> F None = None -> (forall i, (j <= i)%nat -> F (Some i) = None) ->
    (forall i, (i < j)%nat -> isfirst (dir_of md) (Rof key md) (slist t (Some i)) (F (Some i))) ->
    exists m' F', seek_blocks kcmp t bs j key md m = Some m' /\ rep (dir_of md) t m' F' /\ F' None = None /\
      (forall i, (j + length bs <= i)%nat -> F' (Some i) = None) /\
      (forall i, (i < j + length bs)%nat -> isfirst (dir_of md) (Rof key md) (slist t (Some i)) (F' (Some i))).
  Proof.
    intros L MO T. induction bs as [|b bs IH]; intros j m F Hb Rp FN Fhi Flo.
    - exists m, F. simpl. rewrite Nat.add_0_r. auto.
    - assert (Hj : nth_error (t_blocks t) j = Some b) by (rewrite <- (Nat.add_0_r j); apply (Hb 0%nat); auto).
      destruct (seek_block_ok t j b key md L Hj MO) as (o & E & If); [intros; apply T; auto|].
      cbn [seek_blocks length]. rewrite E.
      assert (Hb' : forall i b', nth_error bs i = Some b' -> nth_error (t_blocks t) (S j + i) = Some b').
      { intros i b' H. rewrite Nat.add_succ_comm. apply Hb. auto. }
      replace (j + S (length bs))%nat with (S j + length bs)%nat by lia.
      destruct o as [(pos, e)|].
      + apply (IH (S j) _ (upd F (Some j) (Some (pos, e)))); auto.
        * apply rep_put; auto. apply If.
        * intros i Hi. unfold upd. destruct (src_dec (Some i) (Some j)) as [[= ->]|]; [lia|]. apply Fhi. lia.
        * intros i Hi. unfold upd. destruct (src_dec (Some i) (Some j)) as [[= ->]|Hne]; auto. apply Flo.
          assert (i <> j) by congruence. lia.
      + apply (IH (S j) m F); auto.
        * intros i Hi. apply Fhi. lia.
        * intros i Hi. destruct (Nat.eq_dec i j) as [->|]; [|apply Flo; lia]. rewrite Fhi by lia. exact If.
  Qed.

  Lemma seek_ok t key md : lookup_ok t -> md_ok key md ->
    (forall k s, key = Some k -> md = MNext -> turn_ok t k s) ->
    exists m, it_seek kcmp t key md = Some (mk_iter (Some (dir_of md)) m) /\ at_ (dir_of md) t (Rof key md) m.
  Proof.
    intros L MO T.
    destruct (seek_blocks_ok t key md L MO T (t_blocks t) 0 [] (fun _ => None)) as (m & F & E & Rp & FN & Fhi & Flo); auto.
    - apply rep_nil.
    - intros i Hi. lia.
    - unfold it_seek. rewrite E. pose proof (seek_mem_ok t key md L MO) as If. specialize (If (fun k => T k None)). cbn [Nat.add] in *.
      assert (Blk : forall i, isfirst (dir_of md) (Rof key md) (slist t (Some i)) (F (Some i))).
      { intros i. destruct (Nat.lt_ge_cases i (length (t_blocks t))) as [H|H]; auto. rewrite Fhi by lia.
        intros e He. unfold slist in He. assert (nth_error (t_blocks t) i = None) as X by (apply nth_error_None; auto). rewrite X in He. destruct He. }
      destruct (seek_mem kcmp t key md) as [(pos, e)|].
      + eexists. split; [reflexivity|]. exists (upd F None (Some (pos, e))). split; [apply rep_put; auto; apply If|].
        intros s. unfold upd. destruct (src_dec s None) as [->|Hne]; auto. destruct s as [i|]; [|congruence]. auto.
      + eexists. split; [reflexivity|]. exists F. split; auto. intros [i|]; auto. rewrite FN. exact If.
  Qed.
End P.
