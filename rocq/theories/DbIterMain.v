(** Iterating over a reachable table: enumeration of the live keys and neighbours of the current key. *)
Require Import List Sorted Permutation NArith Lia Bool Arith.
Require Import Verif.OrdLib Verif.DbModel Verif.DbSpec Verif.DbBlockProofs Verif.DbRefineProofs Verif.DbPropsProofs
  Verif.DbIterModel Verif.DbIterSpec Verif.DbIterProofs.
Import ListNotations.
Open Scope N_scope.

(** Every block, and the memory table, that holds a key above [k] also holds [k]. *)
Definition held_throughout {K V : Type} (kcmp : K -> K -> comparison) (t : @table K V) (k : K) : Prop :=
  (forall b e, In b (t_blocks t) -> In e (b_entries b) -> kcmp k (ekey e) = Lt -> exists e', In e' (b_entries b) /\ ekey e' = k) /\
  (forall e, In e (t_mem t) -> kcmp k (ekey e) = Lt -> exists e', In e' (t_mem t) /\ ekey e' = k).

(** The iterators a user can get on table [t]; turning from backward to forward only where [held_throughout]. *)
Inductive reached {K V : Type} (kcmp : K -> K -> comparison) (t : @table K V) : @iter K V -> Prop :=
| r_begin i : seek_begin kcmp t = Some i -> reached kcmp t i
| r_last i : seek_last kcmp t = Some i -> reached kcmp t i
| r_seek k i : seek kcmp t k = Some i -> reached kcmp t i
| r_seek_prev k i : seek_prev kcmp t k = Some i -> reached kcmp t i
| r_prev i i' : reached kcmp t i -> it_prev kcmp t i = Some i' -> reached kcmp t i'
| r_next i i' : reached kcmp t i -> it_next kcmp t i = Some i' ->
    (it_dir i = Some Bwd -> forall k v, current i = Some (k, v) -> held_throughout kcmp t k) -> reached kcmp t i'.

Section P.
  Context {K V : Type} (kcmp : K -> K -> comparison).
  Hypothesis TK : TotalCmp kcmp.
  Notation entry := (@entry K V).
  Notation table := (@table K V).
  Notation klt := (OrdLib.klt kcmp).
  Notation lookup_ok := (@lookup_ok K V kcmp).
  Notation newest_of t := (fun k => find kcmp t k u32max).

  Lemma yields_at d t : lookup_ok t -> forall l (R : K -> Prop) m, closed kcmp d R -> at_ kcmp d t R m ->
    StronglySorted (dlt kcmp d) (map fst l) -> (forall k v, In (k, v) l <-> R k /\ find kcmp t k u32max = Some v) ->
    yields current (it_move kcmp d t) (mk_iter (Some d) m) l.
  Proof.
    intros L. induction l as [|(k0, v0) l IH]; intros R m CR A S H.
    - destruct m as [|((k, n), p) tl]; [constructor; auto|].
      destruct (at_head kcmp TK _ _ _ _ _ _ _ L A) as (H1 & _). pose proof (at_find kcmp TK _ _ _ _ _ _ _ L A) as H2.
      destruct (proj2 (H _ _) (conj H1 H2)).
    - assert (H0 : R k0 /\ find kcmp t k0 u32max = Some v0) by (apply H; left; auto). destruct H0 as (R0 & F0).
      destruct (find_slist kcmp TK _ _ _ L F0) as (s0 & e0 & I0 & E0).
      destruct m as [|((k, n), p) tl].
      { exfalso. eapply (at_nil kcmp); eauto. rewrite E0. auto. }
      destruct (at_head kcmp TK _ _ _ _ _ _ _ L A) as (H1 & H2 & H3). pose proof (at_find kcmp TK _ _ _ _ _ _ _ L A) as H4.
      simpl in S. inversion S as [|? ? S' Fa]; subst. rewrite Forall_forall in Fa.
      assert (Ek : k = ekey e0).
      { assert (In (k, p_value p) ((ekey e0, v0) :: l)) as X by (apply H; auto). destruct X as [[= X _]|X]; auto.
        assert (Y : dlt kcmp d (ekey e0) k) by (apply Fa; apply in_map_iff; exists (k, p_value p); auto).
        destruct (H3 s0 e0 I0 R0) as [(Z & _)|Z]; auto. exfalso. eapply (dlt_asym kcmp TK); eauto. }
      subst k. assert (v0 = p_value p) by congruence. subst v0.
      destruct (move_ok kcmp TK _ _ _ _ _ _ _ L CR A) as (m' & E & A').
      eapply y_step; [reflexivity|exact E|]. apply (IH (fun x => R x /\ dlt kcmp d (ekey e0) x)); auto.
      + intros x y (X1 & X2) X3. split; [eapply CR; eauto|]. eapply (dlt_trans kcmp TK); eauto.
      + intros k v. split.
        * intros X. assert (Y : In (k, v) ((ekey e0, p_value p) :: l)) by (right; auto). apply H in Y. destruct Y as (Y1 & Y2).
          repeat split; auto. apply Fa. apply in_map_iff. exists (k, v); auto.
        * intros ((X1 & X2) & X3). assert (Y : In (k, v) ((ekey e0, p_value p) :: l)) by (apply H; auto).
          destruct Y as [[= Y _]|Y]; auto. subst. exfalso. eapply (dlt_irrefl kcmp TK); eauto.
  Qed.

  (** the listing *)
  Definition listing (t : table) : list (K * V) :=
    fold_right (fun e l => match find kcmp t (ekey e) u32max with Some v => aset kcmp (ekey e) v l | None => l end) [] (content t).

  Lemma listing_ok t : lookup_ok t -> lists kcmp (newest_of t) (listing t).
  Proof.
    intros L. unfold listing.
    assert (X : forall c : list entry,
      let l := fold_right (fun e l => match find kcmp t (ekey e) u32max with Some v => aset kcmp (ekey e) v l | None => l end) [] c in
      asorted kcmp l /\ forall k v, In (k, v) l <-> find kcmp t k u32max = Some v /\ exists e, In e c /\ ekey e = k).
    { induction c as [|e c (IS & IH)]; simpl.
      - split; [constructor|]. intros k v. split; [intros []|intros (_ & e & [] & _)].
      - destruct (find kcmp t (ekey e) u32max) as [v0|] eqn:E.
        + split; [apply aset_sorted; auto|]. intros k v. rewrite aset_In by auto. rewrite IH. split.
          * intros [(-> & ->)|(Hne & A & e' & B & C)]; split; eauto.
          * intros (A & e' & [<-|B] & C).
            -- subst k. left. split; congruence.
            -- destruct (klt_total TK k (ekey e)) as [G|[G|G]].
               ++ right. split; [intros ->; eapply klt_irrefl; eauto|]. eauto.
               ++ subst k. left. split; congruence.
               ++ right. split; [intros ->; eapply klt_irrefl; eauto|]. eauto.
        + split; auto. intros k v. rewrite IH. split.
          * intros (A & e' & B & C). eauto.
          * intros (A & e' & [<-|B] & C); [congruence|]. eauto. }
    destruct (X (content t)) as (S & H). split; [exact S|]. intros k v. rewrite H. split; [tauto|]. intros E. split; auto.
    pose proof (find_newest TK k u32max L) as N. rewrite E in N. destruct N as (n & I & _). exists ((k, n), v). auto.
  Qed.

  Lemma sorted_filter {A} (R : A -> A -> Prop) (f : A -> bool) l : StronglySorted R l -> StronglySorted R (filter f l).
  Proof.
    induction 1 as [|a l S IH F]; simpl; [constructor|]. destruct (f a); auto. constructor; auto.
    rewrite Forall_forall in *. intros x Hx. apply filter_In in Hx. apply F. tauto.
  Qed.
  Lemma sorted_map {A B} (R : B -> B -> Prop) (f : A -> B) l : StronglySorted R (map f l) <-> StronglySorted (fun x y => R (f x) (f y)) l.
  Proof.
    induction l as [|a l IH]; simpl; [split; constructor|]. split; intros S; inversion S as [|? ? S' F]; subst; constructor; try tauto.
    - rewrite Forall_forall in *. intros x Hx. apply F. apply in_map; auto.
    - rewrite Forall_forall in *. intros x Hx. apply in_map_iff in Hx. destruct Hx as (y & <- & Hy). auto.
  Qed.
  Lemma sorted_rev {A} (R : A -> A -> Prop) l : StronglySorted R l -> StronglySorted (fun x y => R y x) (rev l).
  Proof.
    induction 1 as [|a l S IH F]; simpl; [constructor|].
    assert (X : forall l1, StronglySorted (fun x y => R y x) l1 -> (forall x, In x l1 -> R a x) -> StronglySorted (fun x y => R y x) (l1 ++ [a])).
    { clear. induction 1 as [|b l1 S IH F]; intros H; simpl; [repeat constructor|]. constructor.
      - apply IH. intros; apply H; right; auto.
      - rewrite Forall_forall in *. intros x Hx. apply in_app_or in Hx. destruct Hx as [Hx|[<-|[]]]; auto. apply H. left; auto. }
    apply X; auto. intros x Hx. rewrite Forall_forall in F. apply F. apply in_rev. auto.
  Qed.

  Lemma lists_fwd (f : K -> option V) l g : lists kcmp f l -> StronglySorted (dlt kcmp Fwd) (map fst (filter g l)).
  Proof. intros (S & _). apply sorted_map. apply sorted_filter. apply (proj1 (sorted_map _ fst l)) in S. exact S. Qed.
  Lemma lists_bwd (f : K -> option V) l g : lists kcmp f l -> StronglySorted (dlt kcmp Bwd) (map fst (rev (filter g l))).
  Proof.
    intros S. apply (lists_fwd _ _ g) in S. rewrite map_rev. apply sorted_rev in S. exact S.
  Qed.

  Lemma C07_table t l : lookup_ok t -> lists kcmp (newest_of t) l ->
    (exists i, seek_begin kcmp t = Some i /\ yields current (it_next kcmp t) i l) /\
    (exists i, seek_last kcmp t = Some i /\ yields current (it_prev kcmp t) i (rev l)) /\
    (forall k, exists i, seek kcmp t k = Some i /\ yields current (it_next kcmp t) i (filter (fun x => negb (below kcmp k x)) l)) /\
    (forall k, exists i, seek_prev kcmp t k = Some i /\ yields current (it_prev kcmp t) i (rev (filter (below kcmp k) l))).
  Proof.
    intros L Hl. pose proof Hl as (S & HI).
    assert (FT : filter (fun _ => true) l = l) by (clear; induction l; simpl; congruence).
    split; [|split; [|split]].
    - destruct (seek_ok kcmp TK t None MAt L Logic.I) as (m & E & A); [discriminate|]. eexists. split; [exact E|].
      eapply (yields_at Fwd t L l); [|exact A| |].
      + apply (Rof_closed kcmp TK None MAt).
      + rewrite <- FT. eapply lists_fwd; eauto.
      + intros k v. rewrite HI. simpl. tauto.
    - destruct (seek_ok kcmp TK t None MPrev L Logic.I) as (m & E & A); [discriminate|]. eexists. split; [exact E|].
      eapply (yields_at Bwd t L (rev l)); [|exact A| |].
      + apply (Rof_closed kcmp TK None MPrev).
      + rewrite <- FT. eapply lists_bwd; eauto.
      + intros k v. rewrite <- in_rev, HI. simpl. tauto.
    - intros k. destruct (seek_ok kcmp TK t (Some k) MAt L Logic.I) as (m & E & A); [discriminate|]. eexists. split; [exact E|].
      eapply (yields_at Fwd t L); [|exact A| |].
      + apply (Rof_closed kcmp TK (Some k) MAt).
      + eapply lists_fwd; eauto.
      + intros x v. rewrite filter_In, HI. unfold below; simpl. unfold OrdLib.klt.
        destruct (kcmp x k); simpl; split; intros (X & Y); split; auto; congruence.
    - intros k. destruct (seek_ok kcmp TK t (Some k) MPrev L Logic.I) as (m & E & A); [discriminate|]. eexists. split; [exact E|].
      eapply (yields_at Bwd t L); [|exact A| |].
      + apply (Rof_closed kcmp TK (Some k) MPrev).
      + eapply lists_bwd; eauto.
      + intros x v. rewrite <- in_rev, filter_In, HI. unfold below; simpl. unfold OrdLib.klt.
        destruct (kcmp x k); simpl; split; intros (X & Y); split; auto; congruence.
  Qed.

  (** ** Neighbours *)
  Definition nb (d : dir) : (K -> option V) -> K -> option (K * V) -> Prop := match d with Fwd => next_above kcmp | Bwd => next_below kcmp end.

  Lemma at_nb d t (R : K -> Prop) k m : lookup_ok t -> (forall x, R x <-> dlt kcmp d k x) -> at_ kcmp d t R m ->
    nb d (newest_of t) k (current (mk_iter (Some d) m)).
  Proof.
    intros L HR A. destruct m as [|((k', n), p) tl].
    - assert (X : forall x, find kcmp t x u32max <> None -> ~ dlt kcmp d k x).
      { intros x Hx Hlt. destruct (find kcmp t x u32max) as [v|] eqn:E; [|congruence].
        destruct (find_slist kcmp TK _ _ _ L E) as (s & e & I & Ee). eapply (at_nil kcmp _ _ _ _ A eq_refl s e I).
        rewrite Ee. apply HR. auto. }
      destruct d; simpl in *; exact X.
    - destruct (at_head kcmp TK _ _ _ _ _ _ _ L A) as (H1 & H2 & H3). pose proof (at_find kcmp TK _ _ _ _ _ _ _ L A) as H4.
      apply HR in H1.
      assert (X : forall x, find kcmp t x u32max <> None -> dlt kcmp d k x -> x = k' \/ dlt kcmp d k' x).
      { intros x Hx Hlt. destruct (find kcmp t x u32max) as [v|] eqn:E; [|congruence].
        destruct (find_slist kcmp TK _ _ _ L E) as (s & e & I & Ee). subst x. apply HR in Hlt.
        destruct (H3 s e I Hlt) as [(Y & _)|Y]; auto. }
      destruct d; simpl in *; (split; [exact H1|]; split; [exact H4|]; exact X).
  Qed.

  Lemma turn_held t k : lookup_ok t -> held_throughout kcmp t k -> forall s, turn_ok kcmp t k s.
  Proof.
    intros L (HB & HM) s e He Hlt. destruct s as [j|].
    - unfold slist in *. destruct (nth_error (t_blocks t) j) as [b|] eqn:Ej; [|destruct He].
      apply heads_In in He as He'. destruct (HB b e (nth_error_In _ _ Ej) He' Hlt) as (e' & I' & E').
      destruct (@heads_complete _ _ kcmp TK None (b_entries b) e' I' Logic.I) as (h & H1 & H2). exists h. split; auto. congruence.
    - pose proof (slist_mem_ver kcmp _ _ L He) as He'. destruct (HM e He' Hlt) as (e' & I' & E').
      destruct e' as ((k1, n1), v1). unfold ekey in E'; simpl in E'. subst k1.
      pose proof (@find_mem_newest K V kcmp TK t k u32max (lo_mem L)) as N.
      destruct (lo_idx L) as (SI & HI).
      destruct (find_mem kcmp t k u32max) as [v0|].
      + destruct N as (n0 & I0 & L0 & M0). exists ((k, n0), v0). split; auto. unfold slist. apply in_map_iff.
        exists (k, (v0, n0)). split; auto. apply HI. split; auto. intros n' v' H'. apply (M0 n' v' H').
        pose proof (lo_u32 L _ H') as X. unfold ever in X; simpl in X. lia.
      + exfalso. apply N in I' as X. pose proof (lo_u32 L _ I') as Y. unfold ever in Y; simpl in Y. lia.
  Qed.

  Definition good (t : table) (i : @iter K V) : Prop :=
    exists d (R : K -> Prop) m, i = mk_iter (Some d) m /\ closed kcmp d R /\ at_ kcmp d t R m.

  Lemma good_move t i k v d : lookup_ok t -> good t i -> current i = Some (k, v) ->
    (d = Fwd -> it_dir i = Some Bwd -> held_throughout kcmp t k) ->
    find kcmp t k u32max = Some v /\
    exists i', it_move kcmp d t i = Some i' /\ good t i' /\ nb d (newest_of t) k (current i').
  Proof.
    intros L (d0 & R & m & -> & CR & A) C HT. destruct m as [|((k', n), p) tl]; [discriminate|].
    cbn in C. injection C as -> <-. pose proof (at_find kcmp TK _ _ _ _ _ _ _ L A) as H4. split; auto.
    destruct (at_head kcmp TK _ _ _ _ _ _ _ L A) as (H1 & _).
    assert (Same : d = d0 -> exists i', it_move kcmp d t (mk_iter (Some d0) (((k, n), p) :: tl)) = Some i' /\ good t i' /\
              nb d (newest_of t) k (current i')).
    { intros <-. destruct (move_ok kcmp TK _ _ _ _ _ _ _ L CR A) as (m' & E & A'). eexists. split; [exact E|]. split.
      - exists d, (fun x => R x /\ dlt kcmp d k x), m'. split; auto. split; auto.
        intros x y (X1 & X2) X3. split; [eapply CR; eauto|]. eapply (dlt_trans kcmp TK); eauto.
      - eapply at_nb; eauto. intros x. simpl. split; [tauto|]. intros X. split; auto. eapply CR; eauto. }
    destruct d, d0; auto.
    - cbn [it_move it_dir it_map fst].
      destruct (seek_ok kcmp TK t (Some k) MNext L Logic.I) as (m' & E & A').
      { intros k1 s [= <-] _. apply turn_held; auto. }
      rewrite E. eexists. split; [reflexivity|]. split.
      + exists Fwd, (Rof kcmp (Some k) MNext), m'. split; auto. split; auto. apply (Rof_closed kcmp TK (Some k) MNext).
      + eapply (at_nb Fwd); eauto. intros x. simpl. tauto.
    - cbn [it_move it_dir it_map fst].
      destruct (seek_ok kcmp TK t (Some k) MPrev L Logic.I) as (m' & E & A'); [discriminate|].
      rewrite E. eexists. split; [reflexivity|]. split.
      + exists Bwd, (Rof kcmp (Some k) MPrev), m'. split; auto. split; auto. apply (Rof_closed kcmp TK (Some k) MPrev).
      + eapply (at_nb Bwd); eauto. intros x. simpl. tauto.
  Qed.

  Lemma reached_good t i : lookup_ok t -> reached kcmp t i -> good t i.
  Proof.
    intros L. induction 1 as [i E|i E|k i E|k i E|i i' _ IH E|i i' _ IH E HT].
    - destruct (seek_ok kcmp TK t None MAt L Logic.I) as (m & E' & A); [discriminate|].
      unfold seek_begin in E. rewrite E' in E. injection E as <-. exists Fwd, (Rof kcmp None MAt), m. split; auto. split; auto.
      apply (Rof_closed kcmp TK None MAt).
    - destruct (seek_ok kcmp TK t None MPrev L Logic.I) as (m & E' & A); [discriminate|].
      unfold seek_last in E. rewrite E' in E. injection E as <-. exists Bwd, (Rof kcmp None MPrev), m. split; auto. split; auto.
      apply (Rof_closed kcmp TK None MPrev).
    - destruct (seek_ok kcmp TK t (Some k) MAt L Logic.I) as (m & E' & A); [discriminate|].
      unfold seek in E. rewrite E' in E. injection E as <-. exists Fwd, (Rof kcmp (Some k) MAt), m. split; auto. split; auto.
      apply (Rof_closed kcmp TK (Some k) MAt).
    - destruct (seek_ok kcmp TK t (Some k) MPrev L Logic.I) as (m & E' & A); [discriminate|].
      unfold seek_prev in E. rewrite E' in E. injection E as <-. exists Bwd, (Rof kcmp (Some k) MPrev), m. split; auto. split; auto.
      apply (Rof_closed kcmp TK (Some k) MPrev).
    - destruct (current i) as [(k, v)|] eqn:C.
      + destruct (good_move t i k v Bwd L IH C) as (_ & i1 & E1 & G & _); [discriminate|]. unfold it_prev in E. congruence.
      + destruct IH as (d & R & m & -> & _ & _). destruct m as [|(kv, p) tl]; [discriminate E|discriminate C].
    - destruct (current i) as [(k, v)|] eqn:C.
      + destruct (good_move t i k v Fwd L IH C) as (_ & i1 & E1 & G & _); [intros _ Hd; eauto|]. unfold it_next in E. congruence.
      + destruct IH as (d & R & m & -> & _ & _). destruct m as [|(kv, p) tl]; [discriminate E|discriminate C].
  Qed.
End P.
