(** Lookup inside one sorted block, inside the memory table, and in a whole table. *)
Require Import List Sorted Permutation NArith Lia Bool Arith.
Require Import Verif.OrdLib Verif.DbModel.
Import ListNotations.
Set Implicit Arguments.
Open Scope N_scope.

Lemma Forall2_impl' {A B} (P Q : A -> B -> Prop) l1 l2 :
  (forall a b, P a b -> Q a b) -> Forall2 P l1 l2 -> Forall2 Q l1 l2.
Proof. intros H. induction 1; constructor; auto. Qed.

Lemma Forall2_length' {A B} (P : A -> B -> Prop) l1 l2 : Forall2 P l1 l2 -> length l1 = length l2.
Proof. induction 1; simpl; auto. Qed.

Lemma nth_error_firstn' {A} n (l : list A) i : (i < n)%nat -> nth_error (firstn n l) i = nth_error l i.
Proof.
  revert n i. induction l as [|a l IH]; intros [|n] i H; simpl; auto; try lia.
  destruct i; simpl; auto. apply IH. lia.
Qed.

Section P.
  Context {K V : Type} (kcmp : K -> K -> comparison).
  Hypothesis TK : TotalCmp kcmp.
  Notation entry := (@entry K V).
  Notation block := (@block K V).
  Notation table := (@table K V).
  Notation vcmp := (vcmp kcmp).
  Notation klt := (klt kcmp).
  Notation keqb := (keqb kcmp).

  Lemma TV : TotalCmp vcmp.
  Proof. apply lexcmp_total; auto. apply flipcmp_total, Ncompare_total. Qed.

  Lemma keqb_eq x y : keqb x y = true <-> x = y.
  Proof. unfold DbModel.keqb. rewrite <- (tc_eq TK). destruct (kcmp x y); split; congruence. Qed.
  Lemma keqb_neq x y : keqb x y = false <-> x <> y.
  Proof. rewrite <- keqb_eq. destruct (keqb x y); split; congruence. Qed.
  Lemma keqb_refl x : keqb x x = true.
  Proof. apply keqb_eq; auto. Qed.

  Lemma vlt_iff k1 n1 k2 n2 : OrdLib.klt vcmp (k1, n1) (k2, n2) <-> klt k1 k2 \/ (k1 = k2 /\ n2 < n1).
  Proof.
    unfold OrdLib.klt, DbModel.vcmp, lexcmp, flipcmp; simpl.
    destruct (kcmp k1 k2) eqn:E.
    - apply (tc_eq TK) in E. subst. rewrite N.compare_lt_iff. split; auto.
      intros [H|[_ H]]; auto. discriminate.
    - split; auto.
    - split; [discriminate|]. intros [H|[-> _]]; [discriminate|]. rewrite (cmp_refl TK) in E. discriminate.
  Qed.

  Definition esorted (es : list entry) := asorted vcmp es.

  Lemma esorted_cons_inv e es : esorted (e :: es) -> esorted es /\
    (forall e', In e' es -> klt (ekey e) (ekey e') \/ (ekey e = ekey e' /\ ever e' < ever e)).
  Proof.
    destruct e as ((k, n), v). intros S. destruct (asorted_cons_inv S) as (S' & F). split; auto.
    intros ((k', n'), v') Hin. apply F in Hin. apply vlt_iff in Hin. auto.
  Qed.

  Lemma esorted_fun k n v1 v2 es : esorted es -> In ((k, n), v1) es -> In ((k, n), v2) es -> v1 = v2.
  Proof. intros S. eapply asorted_fun; eauto. apply TV. Qed.

  (** [newest c k mv o]: [o] is the value of the newest record of [k] in [c] with version at most [mv] *)
  Definition newest (c : list entry) (k : K) (mv : N) (o : option V) : Prop :=
    match o with
    | Some v => exists n, In ((k, n), v) c /\ n <= mv /\ (forall n' v', In ((k, n'), v') c -> n' <= mv -> n' <= n)
    | None => forall n v, In ((k, n), v) c -> mv < n
    end.

  Lemma newest_fun c k mv o1 o2 :
    (forall n v1 v2, In ((k, n), v1) c -> In ((k, n), v2) c -> v1 = v2) ->
    newest c k mv o1 -> newest c k mv o2 -> o1 = o2.
  Proof.
    intros U. destruct o1 as [v1|], o2 as [v2|]; simpl; auto.
    - intros (n1 & I1 & L1 & M1) (n2 & I2 & L2 & M2).
      assert (n1 = n2) by (apply N.le_antisymm; eauto). subst. f_equal. eauto.
    - intros (n1 & I1 & L1 & M1) H. apply H in I1. lia.
    - intros H (n1 & I1 & L1 & M1). apply H in I1. lia.
  Qed.

  Lemma newest_ext c1 c2 k mv o : (forall n v, In ((k, n), v) c1 <-> In ((k, n), v) c2) ->
    newest c1 k mv o -> newest c2 k mv o.
  Proof.
    intros E. destruct o as [v|]; simpl.
    - intros (n & I & L & M). exists n. split; [apply E; auto|]. split; auto.
      intros n' v' I'. apply E in I'. eauto.
    - intros H n v I. apply E in I. eauto.
  Qed.

  Lemma scan_versions_newest k mv es : esorted es -> (forall e, In e es -> ~ klt (ekey e) k) ->
    newest es k mv (scan_versions kcmp k mv es).
  Proof.
    induction es as [|e es IH]; intros S F; simpl.
    - intros n v [].
    - destruct (esorted_cons_inv S) as (S' & G).
      destruct (keqb (ekey e) k) eqn:E.
      + apply keqb_eq in E. destruct e as ((k0, n0), v0). unfold ekey in E; simpl in E. subst k0.
        unfold ever, evl in *; simpl in *.
        destruct (N.leb_spec n0 mv) as [L|L].
        * hnf. exists n0. split; [left; auto|]. split; auto. intros n' v' [[= <- <-]|Hin] L'; [lia|].
          apply G in Hin. unfold ekey in Hin; simpl in Hin. destruct Hin as [Hin|[_ Hin]]; [|lia].
          exfalso. eapply klt_irrefl; eauto.
        * assert (H : newest es k mv (scan_versions kcmp k mv es)) by (apply IH; auto).
          destruct (scan_versions kcmp k mv es) as [v|]; simpl in *.
          { destruct H as (n & I & L1 & M). exists n. split; auto. split; auto.
            intros n' v' [[= <- <-]|Hin] L'; [lia|eauto]. }
          { intros n v [[= <- <-]|Hin]; eauto. }
      + apply keqb_neq in E. intros n v Hin. exfalso.
        destruct Hin as [->|Hin]; [apply E; reflexivity|].
        apply G in Hin. unfold ekey at 2 4 in Hin; simpl in Hin. destruct Hin as [Hin|[Hin _]]; auto.
        apply (F e); [left; auto|]. exact Hin.
  Qed.

  (** ** The index *)
  Lemma mk_index_ge prev pos (es : list entry) off : In off (mk_index kcmp prev pos es) -> (pos <= off < pos + length es)%nat.
  Proof.
    revert prev pos. induction es as [|e es IH]; simpl; intros prev pos H; [destruct H|].
    assert (In off (pos :: mk_index kcmp (Some (ekey e)) (S pos) es)) as H'.
    { destruct prev as [p|]; auto. destruct (keqb (ekey e) p); auto. right; auto. }
    destruct H' as [<-|H']; [lia|]. apply IH in H'. lia.
  Qed.

  (** the records the index points to *)
  Definition heads_from (pos : nat) (es : list entry) (idx : list nat) : list entry :=
    flat_map (fun off => match nth_error es (off - pos) with Some e => [e] | None => [] end) idx.

  (** direct computation of the heads *)
  Fixpoint heads (prev : option K) (es : list entry) : list entry :=
    match es with
    | [] => []
    | e :: es' =>
      let rest := heads (Some (ekey e)) es' in
      match prev with
      | Some p => if keqb (ekey e) p then rest else e :: rest
      | None => e :: rest
      end
    end.

  Lemma mk_index_heads prev pos (es : list entry) :
    Forall2 (fun off e => (pos <= off)%nat /\ nth_error es (off - pos) = Some e) (mk_index kcmp prev pos es) (heads prev es).
  Proof.
    revert prev pos. induction es as [|e es IH]; simpl; intros prev pos; [constructor|].
    assert (A : Forall2 (fun off x => (pos <= off)%nat /\ nth_error (e :: es) (off - pos) = Some x)
              (mk_index kcmp (Some (ekey e)) (S pos) es) (heads (Some (ekey e)) es)).
    { eapply Forall2_impl'; [|apply IH]. intros off x (L & N). split; [lia|].
      replace (off - pos)%nat with (S (off - S pos)) by lia. auto. }
    assert (B : Forall2 (fun off x => (pos <= off)%nat /\ nth_error (e :: es) (off - pos) = Some x)
              (pos :: mk_index kcmp (Some (ekey e)) (S pos) es) (e :: heads (Some (ekey e)) es)).
    { constructor; auto. rewrite Nat.sub_diag. auto. }
    destruct prev as [p|]; auto. destruct (keqb (ekey e) p); auto.
  Qed.

  Lemma heads_In prev es e : In e (heads prev es) -> In e es.
  Proof.
    revert prev. induction es as [|x es IH]; simpl; intros prev H; auto.
    assert (In e (x :: heads (Some (ekey x)) es)) as H'.
    { destruct prev as [p|]; auto. destruct (keqb (ekey x) p); auto. right; auto. }
    destruct H' as [->|H']; auto. right; eauto.
  Qed.

  (** every key of the block is in the index (except the one carried over from before) *)
  Lemma heads_complete prev es e : In e es -> (match prev with Some p => ekey e <> p | None => True end) ->
    exists h, In h (heads prev es) /\ ekey h = ekey e.
  Proof.
    revert prev. induction es as [|x es IH]; simpl; intros prev H P; [destruct H|].
    destruct H as [->|H].
    - destruct prev as [p|].
      + apply keqb_neq in P. rewrite P. exists e. split; auto. left; auto.
      + exists e. split; auto. left; auto.
    - destruct (keqb (ekey e) (ekey x)) eqn:E.
      + apply keqb_eq in E. destruct prev as [p|].
        * assert (keqb (ekey x) p = false) as -> by (apply keqb_neq; congruence). exists x. split; [left|]; auto.
        * exists x. split; [left|]; auto.
      + apply keqb_neq in E. destruct (IH (Some (ekey x)) H E) as (h & Hh & Eh).
        exists h. split; auto. destruct prev as [p|]; [destruct (keqb (ekey x) p)|]; auto; right; auto.
  Qed.

  (** the heads of a sorted block have strictly increasing keys, all above the previous key *)
  Lemma heads_sorted prev es : esorted es -> (match prev with Some p => forall e, In e es -> ~ klt (ekey e) p | None => True end) ->
    StronglySorted klt (map ekey (heads prev es)) /\
    (forall h, In h (heads prev es) -> match prev with Some p => klt p (ekey h) | None => True end).
  Proof.
    revert prev. induction es as [|x es IH]; simpl; intros prev S P; [split; [constructor|intros ? []]|].
    destruct (esorted_cons_inv S) as (S' & G).
    assert (G' : forall e, In e es -> ~ klt (ekey e) (ekey x)).
    { intros e Hin L. apply G in Hin. destruct Hin as [Hin|[Hin _]].
      - eapply klt_asym; eauto. - rewrite Hin in L. eapply klt_irrefl; eauto. }
    destruct (IH (Some (ekey x)) S' G') as (A & B).
    assert (C : StronglySorted klt (map ekey (x :: heads (Some (ekey x)) es))).
    { simpl. constructor; auto. rewrite Forall_forall. intros k Hk. apply in_map_iff in Hk.
      destruct Hk as (h & <- & Hh). apply B in Hh. auto. }
    destruct prev as [p|]; [|split; auto].
    destruct (keqb (ekey x) p) eqn:E.
    - apply keqb_eq in E. subst p. split; auto.
    - apply keqb_neq in E. split; auto.
      assert (klt p (ekey x)).
      { destruct (klt_total TK p (ekey x)) as [|[|L]]; auto; [congruence|]. exfalso. eapply P; eauto. }
      intros h [<-|Hh]; auto. apply B in Hh. eapply klt_trans; eauto.
  Qed.

  Lemma Forall2_nth_error {A B} (R : A -> B -> Prop) l1 l2 i a :
    Forall2 R l1 l2 -> nth_error l1 i = Some a -> exists b, nth_error l2 i = Some b /\ R a b.
  Proof.
    intros F. revert i. induction F; intros [|i] HH; simpl in *; try discriminate.
    - injection HH as ->. eauto.
    - eauto.
  Qed.
  Lemma Forall2_nth_error_r {A B} (R : A -> B -> Prop) l1 l2 i b :
    Forall2 R l1 l2 -> nth_error l2 i = Some b -> exists a, nth_error l1 i = Some a /\ R a b.
  Proof.
    intros F. revert i. induction F; intros [|i] HH; simpl in *; try discriminate.
    - injection HH as ->. eauto.
    - eauto.
  Qed.

  (** ** Well-formed blocks *)
  Record block_ok (b : block) : Prop := {
    bo_sorted : esorted (b_entries b);
    bo_index : b_index b = mk_index kcmp None 0 (b_entries b);
    bo_range : forall e, In e (b_entries b) -> b_min b <= ever e <= b_max b;
    bo_min : exists e, In e (b_entries b) /\ ever e = b_min b;
    bo_max : exists e, In e (b_entries b) /\ ever e = b_max b;
    bo_u32 : b_max b < u32max
  }.

  Definition bheads (b : block) : list entry := heads None (b_entries b).

  Lemma entry_at_heads b pos : block_ok b -> entry_at b pos = nth_error (bheads b) pos.
  Proof.
    intros B. unfold entry_at, bheads. rewrite (bo_index B).
    pose proof (mk_index_heads None 0 (b_entries b)) as F.
    destruct (nth_error (mk_index kcmp None 0 (b_entries b)) pos) as [off|] eqn:E.
    - destruct (Forall2_nth_error _ F E) as (e & E2 & (_ & E3)). rewrite Nat.sub_0_r in E3. congruence.
    - symmetry. apply nth_error_None. apply nth_error_None in E.
      rewrite <- (Forall2_length' F). auto.
  Qed.

  Lemma index_length b : block_ok b -> length (b_index b) = length (bheads b).
  Proof. intros B. rewrite (bo_index B). eapply Forall2_length', mk_index_heads. Qed.

  Lemma bheads_sorted b : block_ok b -> StronglySorted klt (map ekey (bheads b)).
  Proof. intros B. apply heads_sorted; auto. apply (bo_sorted B). Qed.

  Lemma sorted_nth_lt (l : list K) i j a c : StronglySorted klt l -> (i < j)%nat ->
    nth_error l i = Some a -> nth_error l j = Some c -> klt a c.
  Proof.
    intros S. revert i j. induction S as [|x l S IH F]; intros i j L Hi Hj; [destruct i; discriminate|].
    destruct j as [|j]; [lia|]. simpl in Hj. destruct i as [|i]; simpl in Hi.
    - injection Hi as ->. rewrite Forall_forall in F. apply F. eapply nth_error_In; eauto.
    - eapply IH; [|eauto|eauto]. lia.
  Qed.

  Lemma nth_map {A B} (f : A -> B) l i a : nth_error l i = Some a -> nth_error (map f l) i = Some (f a).
  Proof. intros. rewrite nth_error_map, H. auto. Qed.

  Lemma bsearch_spec b k : block_ok b -> forall fuel L R,
    (R - L < fuel)%nat -> (L <= R <= length (bheads b))%nat ->
    (forall i e, (i < L)%nat -> nth_error (bheads b) i = Some e -> ~ klt k (ekey e)) ->
    (forall i e, (R <= i)%nat -> nth_error (bheads b) i = Some e -> klt k (ekey e)) ->
    exists R', bsearch kcmp fuel b k L R = Some R' /\ (R' <= length (bheads b))%nat /\
      (forall i e, (i < R')%nat -> nth_error (bheads b) i = Some e -> ~ klt k (ekey e)) /\
      (forall i e, (R' <= i)%nat -> nth_error (bheads b) i = Some e -> klt k (ekey e)).
  Proof.
    intros B. pose proof (bheads_sorted B) as SB.
    induction fuel as [|fuel IH]; intros L R F LR A1 A2; [lia|].
    cbn [bsearch]. destruct (Nat.ltb_spec L R) as [Hlt|Hge].
    - set (pos := ((L + R) / 2)%nat).
      assert (Hpos : (L <= pos < R)%nat).
      { unfold pos. pose proof (Nat.div_mod (L + R) 2 ltac:(lia)) as D.
        pose proof (Nat.mod_upper_bound (L + R) 2 ltac:(lia)). lia. }
      rewrite entry_at_heads by auto.
      destruct (nth_error (bheads b) pos) as [e|] eqn:E; [|apply nth_error_None in E; lia].
      assert (Hcase : klt k (ekey e) \/ ~ klt k (ekey e)).
      { unfold OrdLib.klt. destruct (kcmp k (ekey e)); auto; right; discriminate. }
      assert (Hafter : klt k (ekey e) -> forall i e', (pos <= i)%nat -> nth_error (bheads b) i = Some e' -> klt k (ekey e')).
      { intros H i e' Hi E'. destruct (Nat.eq_dec i pos) as [->|]; [congruence|].
        eapply klt_trans; [apply TK|apply H|]. eapply (@sorted_nth_lt _ pos i); eauto; try lia; apply nth_map; auto. }
      assert (Hbefore : ~ klt k (ekey e) -> forall i e', (i < S pos)%nat -> nth_error (bheads b) i = Some e' -> ~ klt k (ekey e')).
      { intros H i e' Hi E' L'. destruct (Nat.eq_dec i pos) as [->|]; [congruence|].
        apply H. eapply klt_trans; [apply TK|apply L'|]. eapply (@sorted_nth_lt _ i pos); eauto; try lia; apply nth_map; auto. }
      destruct (kcmp k (ekey e)) eqn:C.
      + apply IH; try lia; auto. apply Hbefore. unfold OrdLib.klt. congruence.
      + apply IH; try lia; auto. apply Hafter. exact C.
      + apply IH; try lia; auto. apply Hbefore. unfold OrdLib.klt. congruence.
    - assert (L = R) by lia. subst L. exists R. repeat split; auto. lia.
  Qed.

  Lemma lower_bound_spec b k : block_ok b ->
    exists pos oe m, lower_bound kcmp b k = Some (pos, oe, m) /\ (pos <= length (bheads b))%nat /\
      oe = nth_error (bheads b) pos /\
      (forall i e, (i < pos)%nat -> nth_error (bheads b) i = Some e -> klt (ekey e) k) /\
      (forall i e, (pos < i)%nat -> nth_error (bheads b) i = Some e -> klt k (ekey e)) /\
      (if m then exists e, oe = Some e /\ ekey e = k
       else forall e, oe = Some e -> klt k (ekey e)).
  Proof.
    intros B. unfold lower_bound. rewrite (index_length B).
    pose proof (bheads_sorted B) as SB.
    destruct (@bsearch_spec b k B (S (length (bheads b))) 0 (length (bheads b))) as (R & E & HR & A1 & A2); try lia.
    { intros i e Hi H. assert (nth_error (bheads b) i <> None) as H1 by congruence. apply nth_error_Some in H1. lia. }
    rewrite E.
    destruct R as [|R'].
    - exists 0%nat, (entry_at b 0), false. rewrite entry_at_heads by auto. repeat split; auto; try lia.
      + intros i e Hi. apply A2. lia.
      + intros e He. eapply (A2 0%nat); eauto.
    - rewrite entry_at_heads by auto.
      destruct (nth_error (bheads b) R') as [e|] eqn:E1; [|apply nth_error_None in E1; lia].
      assert (Hle : forall i e', (i < R')%nat -> nth_error (bheads b) i = Some e' -> klt (ekey e') (ekey e)).
      { intros i e' Hi E'. eapply (@sorted_nth_lt _ i R'); eauto; apply nth_map; auto. }
      destruct (keqb k (ekey e)) eqn:C.
      + apply keqb_eq in C. subst k. exists R', (Some e), true. repeat split; auto; try lia; eauto.
      + apply keqb_neq in C.
        assert (L : klt (ekey e) k).
        { destruct (klt_total TK (ekey e) k) as [|[|H]]; auto; [congruence|]. exfalso. eapply A1; [|eauto|eauto]. lia. }
        exists (S R'), (entry_at b (S R')), false. rewrite entry_at_heads by auto. repeat split; auto.
        * intros i e' Hi E'. destruct (Nat.eq_dec i R') as [->|]; [congruence|].
          eapply klt_trans; [apply TK| |apply L]. eapply Hle; eauto. lia.
        * intros i e' Hi. apply A2. lia.
        * intros e' He. eapply (A2 (S R')); eauto.
  Qed.

  Lemma skipn_nth_cons {A} (l : list A) i a : nth_error l i = Some a -> skipn i l = a :: skipn (S i) l.
  Proof. revert i. induction l; intros [|i] H; simpl in *; try discriminate; auto. congruence. Qed.

  Lemma esorted_app es1 es2 : esorted (es1 ++ es2) -> esorted es1 /\ esorted es2 /\
    (forall e1 e2, In e1 es1 -> In e2 es2 -> klt (ekey e1) (ekey e2) \/ (ekey e1 = ekey e2 /\ ever e2 < ever e1)).
  Proof.
    unfold esorted, asorted. rewrite map_app. intros S. apply sorted_app_inv in S. destruct S as (A & B & C).
    split; auto. split; auto. intros ((k1, n1), v1) ((k2, n2), v2) H1 H2.
    apply vlt_iff. apply C; apply in_map_iff; [exists ((k1, n1), v1)|exists ((k2, n2), v2)]; auto.
  Qed.

  (** the index points to the first record of each key *)
  Lemma index_first_aux prev pos (es : list entry) i off e :
    esorted es -> (match prev with Some p => forall e, In e es -> ~ klt (ekey e) p | None => True end) ->
    nth_error (mk_index kcmp prev pos es) i = Some off -> nth_error es (off - pos) = Some e ->
    forall j e', (j < off - pos)%nat -> nth_error es j = Some e' -> klt (ekey e') (ekey e).
  Proof.
    revert prev pos i. induction es as [|x es IH]; intros prev pos i S P H E j e' Hj E'; [destruct j; discriminate|].
    destruct (esorted_cons_inv S) as (S' & G).
    assert (G' : forall y, In y es -> ~ klt (ekey y) (ekey x)).
    { intros y Hin L. apply G in Hin. destruct Hin as [Hin|[Hin _]].
      - eapply klt_asym; eauto. - rewrite Hin in L. eapply klt_irrefl; eauto. }
    assert (Hin : In off (mk_index kcmp (Some (ekey x)) (Datatypes.S pos) es)).
    { apply nth_error_In in H. simpl in H.
      assert (In off (pos :: mk_index kcmp (Some (ekey x)) (Datatypes.S pos) es)) as [<-|?]; auto; [|lia].
      destruct prev as [p|]; auto. destruct (keqb (ekey x) p); auto. right; auto. }
    destruct (In_nth_error _ _ Hin) as (i' & Hi').
    pose proof (mk_index_ge _ _ _ _ Hin) as Rg.
    replace (off - pos)%nat with (Datatypes.S (off - Datatypes.S pos)) in * by lia. simpl in E.
    destruct j as [|j].
    - simpl in E'. injection E' as ->.
      (* e is a head in the tail, hence strictly above the previous key *)
      pose proof (mk_index_heads (Some (ekey e')) (Datatypes.S pos) es) as F.
      destruct (Forall2_nth_error _ F Hi') as (h & Hh & (_ & Eh)).
      assert (h = e) by congruence. subst h.
      destruct (@heads_sorted (Some (ekey e')) es S' G') as (_ & B). apply B. eapply nth_error_In; eauto.
    - simpl in E'. eapply (IH (Some (ekey x)) (Datatypes.S pos) i' S' G' Hi' E j); eauto. lia.
  Qed.

  Lemma find_block_newest b k mv : block_ok b -> newest (b_entries b) k mv (find_block kcmp b k mv).
  Proof.
    intros B. unfold find_block.
    destruct (lower_bound_spec k B) as (pos & oe & m & -> & Hpos & Hoe & Hlt & Hgt & Hm).
    destruct m.
    - destruct Hm as (e & -> & <-). symmetry in Hoe.
      pose proof (mk_index_heads None 0 (b_entries b)) as F. rewrite <- (bo_index B) in F.
      destruct (Forall2_nth_error_r _ F Hoe) as (off & Eoff & (_ & Eo)). rewrite Eoff.
      rewrite Nat.sub_0_r in Eo.
      set (es := b_entries b) in *.
      assert (Hf : forall j e', (j < off)%nat -> nth_error es j = Some e' -> klt (ekey e') (ekey e)).
      { intros j e' Hj E'. rewrite (bo_index B) in Eoff.
        eapply (@index_first_aux None 0 es pos off e); eauto; try rewrite Nat.sub_0_r; auto. apply (bo_sorted B). }
      assert (Hsplit : es = firstn off es ++ skipn off es) by (symmetry; apply firstn_skipn).
      assert (Sb : esorted es) by apply (bo_sorted B).
      rewrite Hsplit in Sb. destruct (esorted_app _ _ Sb) as (S1 & S2 & S3).
      assert (Hfirst : forall e', In e' (firstn off es) -> klt (ekey e') (ekey e)).
      { intros e' Hin. apply In_nth_error in Hin. destruct Hin as (j & Hj).
        assert (j < off)%nat.
        { assert (nth_error (firstn off es) j <> None) as Hn by congruence. apply nth_error_Some in Hn.
          rewrite firstn_length in Hn. lia. }
        rewrite nth_error_firstn' in Hj by auto. eapply Hf; eauto. }
      assert (Hskip : forall e', In e' (skipn off es) -> ~ klt (ekey e') (ekey e)).
      { rewrite (skipn_nth_cons _ _ Eo) in *. destruct (esorted_cons_inv S2) as (_ & G).
        intros e' [<-|Hin]; [apply klt_irrefl; auto|]. intros L. apply G in Hin. destruct Hin as [Hin|[Hin _]].
        - eapply klt_asym; eauto. - rewrite Hin in L. eapply klt_irrefl; eauto. }
      eapply newest_ext; [|apply (scan_versions_newest mv S2 Hskip)].
      intros n v. split; intros Hin.
      + rewrite Hsplit. apply in_or_app. auto.
      + rewrite Hsplit in Hin. apply in_app_or in Hin. destruct Hin as [Hin|]; auto.
        exfalso. apply Hfirst in Hin. unfold ekey at 1 in Hin; simpl in Hin. eapply klt_irrefl; eauto.
    - intros n v Hin. exfalso.
      destruct (@heads_complete None _ _ Hin I) as (h & Hh & Eh).
      change (heads None (b_entries b)) with (bheads b) in Hh. unfold ekey at 2 in Eh; simpl in Eh.
      apply In_nth_error in Hh. destruct Hh as (i & Hi).
      destruct (lt_eq_lt_dec i pos) as [[L| ->]|L].
      + apply Hlt in Hi; auto. rewrite Eh in Hi. eapply klt_irrefl; eauto.
      + assert (Hk : klt k (ekey h)) by (apply Hm; congruence). rewrite Eh in Hk. eapply klt_irrefl; eauto.
      + apply Hgt in Hi; auto. rewrite Eh in Hi. eapply klt_irrefl; eauto.
  Qed.

  (** ** Block lists: disjoint, increasing version ranges *)
  Definition blt (a b : block) := b_max a < b_min b.
  Definition blocks_ok (bs : list block) := Forall block_ok bs /\ StronglySorted blt bs.
  Definition bentries (bs : list block) : list entry := flat_map (@b_entries K V) bs.

  Lemma newest_app_hi c1 c2 k mv o1 o2 :
    (forall e1 e2, In e1 c1 -> In e2 c2 -> ever e1 < ever e2) ->
    newest c1 k mv o1 -> newest c2 k mv o2 ->
    newest (c1 ++ c2) k mv (match o2 with Some v => Some v | None => o1 end).
  Proof.
    intros H N1 N2. destruct o2 as [v2|].
    - destruct N2 as (n & I & L & M). hnf. exists n. split; [apply in_or_app; auto|]. split; auto.
      intros n' v' Hin L'. apply in_app_or in Hin. destruct Hin as [Hin|Hin]; eauto.
      specialize (H _ _ Hin I). unfold ever in H; simpl in H. lia.
    - destruct o1 as [v1|].
      + destruct N1 as (n & I & L & M). hnf. exists n. split; [apply in_or_app; auto|]. split; auto.
        intros n' v' Hin L'. apply in_app_or in Hin. destruct Hin as [Hin|Hin]; eauto.
        apply N2 in Hin. lia.
      + intros n v Hin. apply in_app_or in Hin. destruct Hin; eauto.
  Qed.

  Lemma blocks_ok_app bs1 bs2 : blocks_ok (bs1 ++ bs2) ->
    blocks_ok bs1 /\ blocks_ok bs2 /\ (forall a b, In a bs1 -> In b bs2 -> blt a b).
  Proof.
    intros (F & S). apply Forall_app in F. destruct F as (F1 & F2).
    induction bs1 as [|a bs1 IH]; simpl in *.
    - split; [split; auto; constructor|]. split; [split; auto|]. intros ? ? [].
    - inversion S as [|? ? S' G]; subst. inversion F1; subst. destruct IH as ((A1 & A2) & B & C); auto.
      rewrite Forall_forall in G.
      split; [|split; auto].
      + split; [constructor; auto|]. constructor; auto. rewrite Forall_forall. intros x Hx. apply G. apply in_or_app; auto.
      + intros x y [->|Hx] Hy; auto. apply G. apply in_or_app; auto.
  Qed.

  Lemma blocks_ok_app_intro bs1 bs2 : blocks_ok bs1 -> blocks_ok bs2 ->
    (forall a b, In a bs1 -> In b bs2 -> blt a b) -> blocks_ok (bs1 ++ bs2).
  Proof.
    intros (F1 & S1) (F2 & S2) H. split; [apply Forall_app; auto|].
    clear F1. induction S1 as [|a l S1 IH G]; simpl; auto. constructor.
    - apply IH. intros; apply H; simpl; auto.
    - rewrite Forall_forall in *. intros x Hx. apply in_app_or in Hx. destruct Hx; auto. apply H; simpl; auto.
  Qed.

  Lemma blocks_ver_lt bs1 bs2 e1 e2 : blocks_ok (bs1 ++ bs2) -> In e1 (bentries bs1) -> In e2 (bentries bs2) -> ever e1 < ever e2.
  Proof.
    intros B H1 H2. apply blocks_ok_app in B. destruct B as ((F1 & _) & (F2 & _) & H).
    unfold bentries in *. rewrite in_flat_map in *.
    destruct H1 as (b1 & Hb1 & He1), H2 as (b2 & Hb2 & He2).
    rewrite Forall_forall in F1, F2. pose proof (bo_range (F1 _ Hb1) _ He1). pose proof (bo_range (F2 _ Hb2) _ He2).
    specialize (H _ _ Hb1 Hb2). unfold blt in H. lia.
  Qed.

  Lemma find_blocks_newest bs k mv : blocks_ok bs -> newest (bentries bs) k mv (find_blocks kcmp (rev bs) k mv).
  Proof.
    induction bs as [|b bs IH] using rev_ind; intros B.
    - intros n v [].
    - rewrite rev_app_distr. simpl.
      destruct (blocks_ok_app _ _ B) as (B1 & (F2 & _) & _).
      inversion F2 as [|? ? Hb _]; subst. specialize (IH B1).
      unfold bentries. rewrite flat_map_app. simpl. rewrite app_nil_r. fold (bentries bs).
      assert (Hlt : forall e1 e2, In e1 (bentries bs) -> In e2 (b_entries b) -> ever e1 < ever e2).
      { intros e1 e2 H1 H2. eapply blocks_ver_lt; eauto. simpl. rewrite app_nil_r. auto. }
      destruct (N.leb_spec (b_min b) mv) as [L|L].
      + pose proof (@newest_app_hi _ _ k mv _ _ Hlt IH (find_block_newest k mv Hb)) as H.
        destruct (find_block kcmp b k mv); auto.
      + assert (N2 : newest (b_entries b) k mv None).
        { intros n v Hin. apply (bo_range Hb) in Hin. unfold ever in Hin; simpl in Hin. lia. }
        exact (@newest_app_hi _ _ k mv _ _ Hlt IH N2).
  Qed.

  (** ** Memory table *)
  Definition idx_ok (mem : list entry) (idx : list (K * (V * N))) : Prop :=
    asorted kcmp idx /\
    forall k v n, In (k, (v, n)) idx <-> In ((k, n), v) mem /\ (forall n' v', In ((k, n'), v') mem -> n' <= n).

  Lemma scan_back_hit k mv (e : entry) l : ekey e = k -> ever e <= mv -> scan_back kcmp k mv (e :: l) = Some (evl e).
  Proof. intros <- L. simpl. rewrite keqb_refl. apply N.leb_le in L. rewrite L. auto. Qed.

  Lemma find_mem_newest (t : table) k mv : esorted (t_mem t) -> newest (t_mem t) k mv (find_mem kcmp t k mv).
  Proof.
    intros S. unfold find_mem.
    destruct (@alower_spec _ vcmp TV _ (k, mv) (t_mem t) S) as (l1 & E & A & B).
    destruct (alower vcmp (k, mv) (t_mem t)) as [|((k0, n0), v0) tl] eqn:Et.
    - intros n v Hin. rewrite E, app_nil_r in Hin. apply A in Hin. apply vlt_iff in Hin.
      destruct Hin as [Hin|[_ Hin]]; auto. exfalso. eapply klt_irrefl; eauto.
    - assert (N0 : ~ OrdLib.klt vcmp (k0, n0) (k, mv)) by (apply (B (k0, n0) v0); left; auto).
      rewrite vlt_iff in N0.
      rewrite E in S. destruct (esorted_app _ _ S) as (_ & S2 & _).
      destruct (esorted_cons_inv S2) as (_ & G).
      destruct (keqb k0 k) eqn:C.
      + apply keqb_eq in C. subst k0.
        assert (L0 : n0 <= mv) by (destruct (N.le_gt_cases n0 mv); auto; exfalso; apply N0; auto).
        rewrite (@scan_back_hit k mv ((k, n0), v0)); auto. unfold evl; simpl.
        hnf. exists n0. split; [rewrite E; apply in_or_app; right; left; auto|]. split; auto.
        intros n' v' Hin L'. rewrite E in Hin. apply in_app_or in Hin. destruct Hin as [Hin|[[= <- <-]|Hin]]; [|lia|].
        * apply A in Hin. apply vlt_iff in Hin. destruct Hin as [Hin|[_ Hin]]; [|lia]. exfalso. eapply klt_irrefl; eauto.
        * apply G in Hin. unfold ekey, ever in Hin; simpl in Hin. destruct Hin as [Hin|[_ Hin]]; [|lia]. exfalso. eapply klt_irrefl; eauto.
      + cbn [scan_back]. unfold ekey at 1; simpl. rewrite C. apply keqb_neq in C.
        intros n v Hin. rewrite E in Hin. apply in_app_or in Hin. destruct Hin as [Hin|[[= <- <- <-]|Hin]]; [|congruence|].
        * apply A in Hin. apply vlt_iff in Hin. destruct Hin as [Hin|[_ Hin]]; [|lia]. exfalso. eapply klt_irrefl; eauto.
        * exfalso. apply G in Hin. unfold ekey, ever in Hin; simpl in Hin. destruct Hin as [Hin|[-> _]]; auto.
  Qed.

  (** ** The whole table *)
  Definition content (t : table) : list entry := bentries (t_blocks t) ++ t_mem t.

  Record lookup_ok (t : table) : Prop := {
    lo_blocks : blocks_ok (t_blocks t);
    lo_mem : esorted (t_mem t);
    lo_idx : idx_ok (t_mem t) (t_idx t);
    lo_ver : forall b e, In b (t_blocks t) -> In e (t_mem t) -> b_max b < ever e;
    lo_u32 : forall e, In e (t_mem t) -> ever e < u32max
  }.

  Lemma lookup_ver t e1 e2 : lookup_ok t -> In e1 (bentries (t_blocks t)) -> In e2 (t_mem t) -> ever e1 < ever e2.
  Proof.
    intros L H1 H2. unfold bentries in H1. rewrite in_flat_map in H1. destruct H1 as (b & Hb & He).
    destruct (lo_blocks L) as (F & _). rewrite Forall_forall in F. pose proof (bo_range (F _ Hb) _ He).
    pose proof (lo_ver L _ _ Hb H2). lia.
  Qed.

  Lemma find_newest t k mv : lookup_ok t -> newest (content t) k mv (find kcmp t k mv).
  Proof.
    intros L. unfold find, content.
    pose proof (find_blocks_newest k mv (lo_blocks L)) as HB.
    pose proof (@find_mem_newest t k mv (lo_mem L)) as HM.
    pose proof (fun e1 e2 => @lookup_ver t e1 e2 L) as Hlt.
    destruct (lo_idx L) as (SI & HI).
    destruct (aget kcmp k (t_idx t)) as [(v, n)|] eqn:E.
    - apply (aget_In TK) in E; auto. apply HI in E. destruct E as (Hin & Hmax).
      destruct (N.leb_spec n mv) as [Le|Le].
      + assert (N2 : newest (t_mem t) k mv (Some v)) by (hnf; exists n; split; auto; split; auto; eauto).
        exact (@newest_app_hi _ _ k mv _ _ Hlt HB N2).
      + exact (@newest_app_hi _ _ k mv _ _ Hlt HB HM).
    - assert (N2 : newest (t_mem t) k mv None).
      { intros n v Hin. exfalso.
        (* some newest record of k exists, hence an index entry *)
        pose proof (@find_mem_newest t k (N.max n (fold_right (fun e m => N.max (ever e) m) 0 (t_mem t))) (lo_mem L)) as H.
        set (mx := N.max n (fold_right (fun e m => N.max (ever e) m) 0 (t_mem t))) in *.
        assert (Hall : forall e, In e (t_mem t) -> ever e <= mx).
        { intros e He. unfold mx. clear - He. induction (t_mem t) as [|x l IH]; [destruct He|]. simpl.
          destruct He as [->|He]; [lia|]. specialize (IH He). lia. }
        destruct (find_mem kcmp t k mx) as [v'|].
        - destruct H as (n' & I' & L' & M'). eapply (aget_None TK) in E; eauto. apply E. apply HI. split; eauto.
          intros n'' v'' I''. apply M' with v''; auto. apply Hall in I''. exact I''.
        - apply H in Hin. unfold mx in Hin. lia. }
      exact (@newest_app_hi _ _ k mv _ _ Hlt HB N2).
  Qed.

  Lemma content_fun t k n v1 v2 : lookup_ok t -> In ((k, n), v1) (content t) -> In ((k, n), v2) (content t) -> v1 = v2.
  Proof.
    intros L H1 H2. unfold content in *. apply in_app_or in H1, H2.
    assert (HB : forall bs, blocks_ok bs -> In ((k, n), v1) (bentries bs) -> In ((k, n), v2) (bentries bs) -> v1 = v2).
    { clear - TK. induction bs as [|b bs IH]; intros B H1 H2; [destruct H1|].
      simpl in *. apply in_app_or in H1, H2.
      assert (X : forall e1 e2, In e1 (b_entries b) -> In e2 (bentries bs) -> ever e1 < ever e2).
      { intros e1 e2 I1 I2. apply (@blocks_ver_lt [b] bs); auto. simpl. rewrite app_nil_r. auto. }
      destruct (@blocks_ok_app [b] bs B) as ((F & _) & B2 & _). inversion F as [|? ? Hb _]; subst.
      destruct H1 as [H1|H1], H2 as [H2|H2].
      - eapply esorted_fun; eauto. apply (bo_sorted Hb).
      - specialize (X _ _ H1 H2). unfold ever in X; simpl in X. lia.
      - specialize (X _ _ H2 H1). unfold ever in X; simpl in X. lia.
      - auto. }
    destruct H1 as [H1|H1], H2 as [H2|H2].
    - eapply HB; eauto. apply (lo_blocks L).
    - pose proof (lookup_ver _ _ L H1 H2) as X. unfold ever in X; simpl in X. lia.
    - pose proof (lookup_ver _ _ L H2 H1) as X. unfold ever in X; simpl in X. lia.
    - eapply esorted_fun; eauto. apply (lo_mem L).
  Qed.
End P.
