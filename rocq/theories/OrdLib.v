(** Generic facts on total comparison functions and sorted association lists.
    [std::map] of the code is represented by a list of pairs sorted by key. *)
Require Import List Sorted Permutation NArith Lia Bool.
Import ListNotations.
Set Implicit Arguments.

Record TotalCmp {K : Type} (cmp : K -> K -> comparison) : Prop := {
  tc_eq : forall x y, cmp x y = Eq <-> x = y;
  tc_opp : forall x y, cmp y x = CompOpp (cmp x y);
  tc_trans : forall x y z, cmp x y = Lt -> cmp y z = Lt -> cmp x z = Lt
}.

Section Ord.
  Context {K : Type} (cmp : K -> K -> comparison).
  Hypothesis TC : TotalCmp cmp.

  Definition klt x y := cmp x y = Lt.

  Lemma cmp_refl x : cmp x x = Eq.
  Proof. apply (tc_eq TC); reflexivity. Qed.
  Lemma klt_irrefl x : ~ klt x x.
  Proof. unfold klt. rewrite cmp_refl. discriminate. Qed.
  Lemma klt_trans x y z : klt x y -> klt y z -> klt x z.
  Proof. apply (tc_trans TC). Qed.
  Lemma cmp_gt_lt x y : cmp x y = Gt <-> klt y x.
  Proof. unfold klt. rewrite (tc_opp TC x y). destruct (cmp x y); simpl; split; congruence. Qed.
  Lemma klt_asym x y : klt x y -> klt y x -> False.
  Proof. intros A B. apply (klt_irrefl (x:=x)). eapply klt_trans; eauto. Qed.
  Lemma klt_total x y : klt x y \/ x = y \/ klt y x.
  Proof.
    destruct (cmp x y) eqn:E.
    - right; left. apply (tc_eq TC); auto.
    - left; auto.
    - right; right. apply cmp_gt_lt; auto.
  Qed.
  Lemma klt_neq x y : klt x y -> x <> y.
  Proof. intros H ->. eapply klt_irrefl; eauto. Qed.

  (** Two strictly sorted lists with the same elements are equal. *)
  Lemma sorted_unique l1 l2 :
    StronglySorted klt l1 -> StronglySorted klt l2 ->
    (forall x, In x l1 <-> In x l2) -> l1 = l2.
  Proof.
    intros S1. revert l2. induction S1 as [|a l1 S1 IH F1]; intros l2 S2 H.
    - destruct l2 as [|b l2]; auto. exfalso. apply (proj2 (H b)). left; auto.
    - destruct S2 as [|b l2 S2 F2].
      + exfalso. apply (proj1 (H a)). left; auto.
      + rewrite Forall_forall in F1, F2.
        assert (a = b) as ->.
        { destruct (proj1 (H a) (or_introl eq_refl)) as [|Ha]; auto.
          destruct (proj2 (H b) (or_introl eq_refl)) as [|Hb]; auto.
          exfalso. eapply klt_asym; eauto. }
        f_equal. apply IH; auto.
        intros x. split; intros Hx.
        * destruct (proj1 (H x) (or_intror Hx)) as [->|]; auto.
          exfalso. eapply klt_irrefl; eauto.
        * destruct (proj2 (H x) (or_intror Hx)) as [->|]; auto.
          exfalso. eapply klt_irrefl; eauto.
  Qed.

  Lemma sorted_app l1 l2 :
    StronglySorted klt l1 -> StronglySorted klt l2 ->
    (forall x y, In x l1 -> In y l2 -> klt x y) -> StronglySorted klt (l1 ++ l2).
  Proof.
    induction 1 as [|a l S IH F]; intros S2 H; simpl; auto.
    constructor.
    - apply IH; auto. intros; apply H; simpl; auto.
    - rewrite Forall_forall in *. intros x Hx. apply in_app_or in Hx. destruct Hx; auto.
      apply H; simpl; auto.
  Qed.

  Lemma sorted_app_inv l1 l2 :
    StronglySorted klt (l1 ++ l2) ->
    StronglySorted klt l1 /\ StronglySorted klt l2 /\ (forall x y, In x l1 -> In y l2 -> klt x y).
  Proof.
    induction l1 as [|a l1 IH]; simpl; intros S.
    - split; [constructor|]. split; auto. intros ? ? [].
    - inversion S as [|? ? S' F]; subst. destruct (IH S') as (A & B & C).
      rewrite Forall_forall in F.
      split; [constructor; auto; rewrite Forall_forall; intros; apply F; apply in_or_app; auto|].
      split; auto. intros x y [->|Hx] Hy; auto. apply F. apply in_or_app; auto.
  Qed.

  (** Association lists sorted by key: the content of a [std::map]. *)
  Section Assoc.
    Context {V : Type}.
    Definition asorted (l : list (K * V)) := StronglySorted klt (map fst l).

    (** [m\[k\] = v] *)
    Fixpoint aset (k : K) (v : V) (l : list (K * V)) : list (K * V) :=
      match l with
      | [] => [(k, v)]
      | (k', v') :: l' =>
        match cmp k k' with
        | Lt => (k, v) :: l
        | Eq => (k, v) :: l'
        | Gt => (k', v') :: aset k v l'
        end
      end.

    (** [m.find(k)] *)
    Fixpoint aget (k : K) (l : list (K * V)) : option V :=
      match l with
      | [] => None
      | (k', v') :: l' => match cmp k k' with Eq => Some v' | _ => aget k l' end
      end.

    (** the tail of the map starting at [m.lower_bound(k)] *)
    Fixpoint alower (k : K) (l : list (K * V)) : list (K * V) :=
      match l with
      | [] => []
      | (k', v') :: l' => match cmp k' k with Lt => alower k l' | _ => l end
      end.

    (** the elements before [m.lower_bound(k)], last one first *)
    Fixpoint abelow (k : K) (l acc : list (K * V)) : list (K * V) :=
      match l with
      | [] => acc
      | (k', v') :: l' => match cmp k' k with Lt => abelow k l' ((k', v') :: acc) | _ => acc end
      end.

    Lemma asorted_cons_inv k v l : asorted ((k, v) :: l) -> asorted l /\ (forall k' v', In (k', v') l -> klt k k').
    Proof.
      unfold asorted; simpl. intros S. inversion S as [|? ? S' F]; subst. split; auto.
      rewrite Forall_forall in F. intros k' v' H. apply F. apply in_map_iff. exists (k', v'); auto.
    Qed.
    Lemma asorted_cons k v l : asorted l -> (forall k' v', In (k', v') l -> klt k k') -> asorted ((k, v) :: l).
    Proof.
      unfold asorted; simpl. intros S H. constructor; auto.
      rewrite Forall_forall. intros x Hx. apply in_map_iff in Hx. destruct Hx as ((k', v') & <- & Hx). eapply H; eauto.
    Qed.

    Lemma aset_In k v l k' v' : asorted l ->
      (In (k', v') (aset k v l) <-> (k' = k /\ v' = v) \/ (k' <> k /\ In (k', v') l)).
    Proof.
      induction l as [|(k0, v0) l IH]; intros S.
      - simpl. split; [intros [[= <- <-]|[]]; auto|]. intros [[-> ->]|[? []]]; auto.
      - destruct (asorted_cons_inv S) as (S' & F). simpl.
        destruct (cmp k k0) eqn:E; simpl.
        + apply (tc_eq TC) in E. subst k0. split.
          * intros [[= <- <-]|Hin]; auto. right. split; auto. intros ->. apply F in Hin. eapply klt_irrefl; eauto.
          * intros [[-> ->]|[Hne [[= <- <-]|Hin]]]; auto. congruence.
        + split.
          * intros [[= <- <-]|[[= <- <-]|Hin]]; auto.
            { right. split; auto. intros ->. eapply klt_irrefl; eauto. }
            { right. split; auto. intros ->. apply F in Hin. eapply klt_asym; eauto. }
          * intros [[-> ->]|[Hne Hin]]; auto.
        + apply cmp_gt_lt in E. rewrite (IH S'). split.
          * intros [[= <- <-]|[[-> ->]|[Hne Hin]]]; auto. right. split; auto. intros ->. eapply klt_irrefl; eauto.
          * intros [[-> ->]|[Hne [[= <- <-]|Hin]]]; auto.
    Qed.

    Lemma aset_sorted k v l : asorted l -> asorted (aset k v l).
    Proof.
      induction l as [|(k0, v0) l IH]; intros S; simpl.
      - apply asorted_cons; auto. intros ? ? [].
      - destruct (asorted_cons_inv S) as (S' & F).
        destruct (cmp k k0) eqn:E.
        + apply (tc_eq TC) in E. subst k0. apply asorted_cons; auto.
        + apply asorted_cons; auto. intros k' v' [[= <- <-]|Hin]; auto. apply F in Hin. eapply klt_trans; eauto.
        + apply cmp_gt_lt in E. apply asorted_cons; auto. intros k' v' Hin. apply aset_In in Hin; auto.
          destruct Hin as [[-> ->]|[_ Hin]]; auto. eapply F; eauto.
    Qed.

    Lemma aget_In k v l : asorted l -> (aget k l = Some v <-> In (k, v) l).
    Proof.
      induction l as [|(k0, v0) l IH]; intros S; simpl.
      - split; [discriminate|intros []].
      - destruct (asorted_cons_inv S) as (S' & F).
        destruct (cmp k k0) eqn:E.
        + apply (tc_eq TC) in E. subst k0. split; [intros [= <-]; auto|].
          intros [[= <-]|Hin]; auto. apply F in Hin. exfalso. eapply klt_irrefl; eauto.
        + rewrite (IH S'). split; auto. intros [[= <- <-]|Hin]; auto. rewrite cmp_refl in E. discriminate.
        + rewrite (IH S'). split; auto. intros [[= <- <-]|Hin]; auto. rewrite cmp_refl in E. discriminate.
    Qed.

    Lemma aget_None k l : asorted l -> (aget k l = None <-> forall v, ~ In (k, v) l).
    Proof.
      intros S. split.
      - intros E v Hin. apply aget_In in Hin; auto. congruence.
      - intros H. destruct (aget k l) eqn:E; auto. apply aget_In in E; auto. exfalso. eapply H; eauto.
    Qed.

    Lemma asorted_fun k v1 v2 l : asorted l -> In (k, v1) l -> In (k, v2) l -> v1 = v2.
    Proof. intros S H1 H2. apply aget_In in H1, H2; auto. congruence. Qed.

    Lemma aget_aset k v l k' : asorted l -> aget k' (aset k v l) = match cmp k' k with Eq => Some v | _ => aget k' l end.
    Proof.
      intros S. pose proof (aset_sorted k v S) as S2.
      destruct (cmp k' k) eqn:E.
      - apply (tc_eq TC) in E. subst. apply aget_In; auto. apply aset_In; auto.
      - assert (k' <> k) by (intros ->; rewrite cmp_refl in E; discriminate).
        destruct (aget k' l) eqn:G.
        + apply aget_In; auto. apply aset_In; auto. right. split; auto. apply aget_In; auto.
        + apply aget_None; auto. intros w Hin. apply aset_In in Hin; auto. destruct Hin as [[]|[]]; auto.
          eapply aget_None in G; eauto.
      - assert (k' <> k) by (intros ->; rewrite cmp_refl in E; discriminate).
        destruct (aget k' l) eqn:G.
        + apply aget_In; auto. apply aset_In; auto. right. split; auto. apply aget_In; auto.
        + apply aget_None; auto. intros w Hin. apply aset_In in Hin; auto. destruct Hin as [[]|[]]; auto.
          eapply aget_None in G; eauto.
    Qed.

    Lemma asorted_ext l1 l2 : asorted l1 -> asorted l2 -> (forall k, aget k l1 = aget k l2) -> l1 = l2.
    Proof.
      revert l2. induction l1 as [|(a, va) l1 IH]; intros l2 S1 S2 H.
      - destruct l2 as [|(b, vb) l2]; auto. specialize (H b). simpl in H. rewrite cmp_refl in H. discriminate.
      - destruct l2 as [|(b, vb) l2].
        + specialize (H a). simpl in H. rewrite cmp_refl in H. discriminate.
        + destruct (asorted_cons_inv S1) as (S1' & F1). destruct (asorted_cons_inv S2) as (S2' & F2).
          destruct (klt_total a b) as [L|[->|L]].
          * exfalso. specialize (H a). simpl in H. rewrite cmp_refl, L in H. symmetry in H.
            apply aget_In in H; auto. apply F2 in H. eapply klt_asym; eauto.
          * assert (va = vb) as ->. { specialize (H b). simpl in H. rewrite cmp_refl in H. congruence. }
            f_equal. apply IH; auto. intros k. specialize (H k). simpl in H.
            destruct (cmp k b) eqn:E; auto. apply (tc_eq TC) in E. subst.
            transitivity (@None V); [|symmetry]; apply aget_None; auto; intros v Hin.
            { apply F1 in Hin. eapply klt_irrefl; eauto. }
            { apply F2 in Hin. eapply klt_irrefl; eauto. }
          * exfalso. specialize (H b). simpl in H. rewrite cmp_refl, L in H.
            apply aget_In in H; auto. apply F1 in H. eapply klt_asym; eauto.
    Qed.

    Lemma alower_spec k l : asorted l ->
      exists l1, l = l1 ++ alower k l /\ (forall k' v, In (k', v) l1 -> klt k' k) /\
                 (forall k' v, In (k', v) (alower k l) -> ~ klt k' k).
    Proof.
      induction l as [|(k0, v0) l IH]; intros S; simpl.
      - exists []. repeat split; auto; intros ? ? [].
      - destruct (asorted_cons_inv S) as (S' & F).
        destruct (IH S') as (l1 & E & A & B).
        destruct (cmp k0 k) eqn:C.
        + exists []. repeat split; auto. intros ? ? [].
          apply (tc_eq TC) in C. subst. intros k' v [[= <- <-]|Hin] L; [eapply klt_irrefl; eauto|].
          apply F in Hin. eapply klt_asym; eauto.
        + exists ((k0, v0) :: l1). simpl. rewrite <- E. repeat split; auto.
          intros k' v [[= <- <-]|Hin]; auto. eapply A; eauto.
        + exists []. repeat split; auto. intros ? ? [].
          apply cmp_gt_lt in C. intros k' v [[= <- <-]|Hin] L; [eapply klt_asym; eauto|].
          apply F in Hin. eapply klt_asym; [apply Hin|]. eapply klt_trans; eauto.
    Qed.

    Lemma abelow_spec k l acc : asorted l ->
      exists l1 l2, l = l1 ++ l2 /\ abelow k l acc = rev l1 ++ acc /\
        (forall k' v, In (k', v) l1 -> klt k' k) /\ (forall k' v, In (k', v) l2 -> ~ klt k' k).
    Proof.
      revert acc. induction l as [|(k0, v0) l IH]; intros acc S; simpl.
      - exists [], []. repeat split; auto; intros ? ? [].
      - destruct (asorted_cons_inv S) as (S' & F).
        destruct (cmp k0 k) eqn:C.
        + exists [], ((k0, v0) :: l). repeat split; auto. intros ? ? [].
          apply (tc_eq TC) in C. subst. intros k' v [[= <- <-]|Hin] L; [eapply klt_irrefl; eauto|].
          apply F in Hin. eapply klt_asym; eauto.
        + destruct (IH ((k0, v0) :: acc) S') as (l1 & l2 & E & R & A & B).
          exists ((k0, v0) :: l1), l2. simpl. rewrite R, <- E, <- app_assoc. repeat split; auto.
          intros k' v [[= <- <-]|Hin]; auto. eapply A; eauto.
        + exists [], ((k0, v0) :: l). repeat split; auto. intros ? ? [].
          apply cmp_gt_lt in C. intros k' v [[= <- <-]|Hin] L; [eapply klt_asym; eauto|].
          apply F in Hin. eapply klt_asym; [apply Hin|]. eapply klt_trans; eauto.
    Qed.

    Lemma asorted_filter f l : asorted l -> asorted (filter f l).
    Proof.
      induction l as [|(k, v) l IH]; intros S; simpl; auto.
      destruct (asorted_cons_inv S) as (S' & F). destruct (f (k, v)); auto.
      apply asorted_cons; auto. intros k' v' Hin. apply filter_In in Hin. destruct Hin. eapply F; eauto.
    Qed.
  End Assoc.
End Ord.

(** [std::pair] ordering and the lexicographic order used for keys *)
Definition lexcmp {A B} (ca : A -> A -> comparison) (cb : B -> B -> comparison) (x y : A * B) : comparison :=
  match ca (fst x) (fst y) with Eq => cb (snd x) (snd y) | c => c end.

Lemma lexcmp_total A B ca cb : @TotalCmp A ca -> @TotalCmp B cb -> TotalCmp (lexcmp ca cb).
Proof.
  intros TA TB. split; unfold lexcmp.
  - intros (a, b) (a', b'); simpl. destruct (ca a a') eqn:E.
    + apply (tc_eq TA) in E. subst. rewrite (tc_eq TB). split; congruence.
    + split; [discriminate|]. intros [= -> ->]. rewrite (cmp_refl TA) in E. discriminate.
    + split; [discriminate|]. intros [= -> ->]. rewrite (cmp_refl TA) in E. discriminate.
  - intros (a, b) (a', b'); simpl. rewrite (tc_opp TA a a'). destruct (ca a a'); simpl; auto. apply (tc_opp TB).
  - intros (a, b) (a', b') (a'', b''); simpl.
    destruct (ca a a') eqn:E1; try discriminate; destruct (ca a' a'') eqn:E2; try discriminate.
    + apply (tc_eq TA) in E1, E2. subst. rewrite (cmp_refl TA). apply (tc_trans TB).
    + apply (tc_eq TA) in E1. subst. rewrite E2. auto.
    + apply (tc_eq TA) in E2. subst. rewrite E1. auto.
    + rewrite (tc_trans TA _ _ _ E1 E2). auto.
Qed.

Lemma Ncompare_total : TotalCmp N.compare.
Proof.
  split.
  - apply N.compare_eq_iff.
  - intros. apply N.compare_antisym.
  - intros x y z. rewrite !N.compare_lt_iff. lia.
Qed.

Definition flipcmp {A} (c : A -> A -> comparison) x y := c y x.
Lemma flipcmp_total A c : @TotalCmp A c -> TotalCmp (flipcmp c).
Proof.
  intros T. split; unfold flipcmp; intros.
  - rewrite (tc_eq T). split; congruence.
  - apply (tc_opp T).
  - eapply (tc_trans T); eauto.
Qed.

(** memcmp on byte strings of equal length, and lexicographic order in general *)
Fixpoint bytescmp (x y : list N) : comparison :=
  match x, y with
  | [], [] => Eq
  | [], _ => Lt
  | _, [] => Gt
  | a :: x', b :: y' => match N.compare a b with Eq => bytescmp x' y' | c => c end
  end.

Lemma bytescmp_total : TotalCmp bytescmp.
Proof.
  split.
  - induction x as [|a x IH]; destruct y as [|b y]; simpl; try (split; congruence).
    destruct (N.compare a b) eqn:E.
    + apply N.compare_eq_iff in E. subst. rewrite IH. split; congruence.
    + split; try discriminate. intros [= -> ->]. rewrite N.compare_refl in E. discriminate.
    + split; try discriminate. intros [= -> ->]. rewrite N.compare_refl in E. discriminate.
  - induction x as [|a x IH]; destruct y as [|b y]; simpl; auto.
    rewrite (N.compare_antisym a b). destruct (N.compare a b); simpl; auto.
  - induction x as [|a x IH]; destruct y as [|b y], z as [|c z]; simpl; try congruence.
    destruct (N.compare a b) eqn:E1; try discriminate; destruct (N.compare b c) eqn:E2; try discriminate; intros H1 H2.
    + apply N.compare_eq_iff in E1, E2. subst. rewrite N.compare_refl. eauto.
    + apply N.compare_eq_iff in E1. subst. rewrite E2. auto.
    + apply N.compare_eq_iff in E2. subst. rewrite E1. auto.
    + rewrite N.compare_lt_iff in *. replace (a ?= c)%N with Lt; auto. symmetry. apply N.compare_lt_iff. lia.
Qed.
