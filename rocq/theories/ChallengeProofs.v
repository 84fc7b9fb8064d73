(** Proofs about the challenges. *)
Require Import List Arith NArith Bool ZArith Lia.
From Verif Require Import ChallengeModel ChallengeSpec.
Import ListNotations.
Open Scope N_scope.

Section P.
  Variables (next before : N -> N) (infuse : N -> N -> N) (draws : N -> N -> bool).
  Variables (challenge_delay max_vdf_count max_history : nat) (max_fork_len hardfork2 : N) (new_diff : header -> N).
  Variable get_header : N -> option header.
  Notation check := (check_header next infuse draws max_vdf_count max_fork_len hardfork2 new_diff).
  Notation valid := (fun p b => check p b = true).
  Notation chained := (chain_of get_header valid).
  Notation anc := (ancestors get_header).
  Notation between := (between next).
  Notation challenges := (challenges next).
  Notation lookup := (lookup_padded before).
  Notation find := (find_challenge next before challenge_delay max_vdf_count get_header).

  Lemma repeated_out f n c : repeated f n (f c) = f (repeated f n c).
  Proof. revert c; induction n as [|n IH]; intros c; cbn [repeated]; [reflexivity | apply IH]. Qed.
  Lemma repeated_S f n c : repeated f (S n) c = f (repeated f n c).
  Proof. cbn [repeated]; apply repeated_out. Qed.
  Lemma repeated_add f m n c : repeated f (m + n) c = repeated f n (repeated f m c).
  Proof. revert c; induction m as [|m IH]; intros c; cbn [repeated Nat.add]; [reflexivity | apply IH]. Qed.
  Lemma steps_repeated f n c : steps f n c (repeated f n c).
  Proof. induction n as [|n IH]; [constructor | rewrite repeated_S; constructor; exact IH]. Qed.
  Lemma steps_det f n c x : steps f n c x -> x = repeated f n c.
  Proof. induction 1 as [|n c x _ IH]; [reflexivity | rewrite repeated_S, IH; reflexivity]. Qed.

  Definition own (b : header) : N * N := (h_challenge b, h_space_diff b).
  (** the values of a chain, newest first *)
  Fixpoint values (l : list header) : list (N * N) :=
    match l with
    | [] => []
    | [g] => [own g]
    | b :: ((p :: _) as l') => own b :: rev (between (h_vdf_count b - 1) (h_challenge p) (h_space_diff p)) ++ values l'
    end.
  Lemma challenges_snoc m : forall q p b,
    challenges q ((m ++ [p]) ++ [b]) = challenges q (m ++ [p]) ++ between (h_vdf_count b - 1) (h_challenge p) (h_space_diff p) ++ [own b].
  Proof.
    induction m as [|x m IH]; intros q p b; cbn [challenges app].
    - rewrite <- app_assoc. reflexivity.
    - rewrite IH. rewrite <- app_assoc. reflexivity.
  Qed.
  Lemma challenges_values l : rev (challenges None (rev l)) = values l.
  Proof.
    induction l as [|b l IH]; [reflexivity|]. destruct l as [|p l]; [reflexivity|].
    cbn [rev]. rewrite challenges_snoc. rewrite !rev_app_distr. cbn [rev] in IH. rewrite IH. cbn [rev app values]. reflexivity.
  Qed.

  Lemma between_length n c d : length (between n c d) = n.
  Proof. revert c; induction n as [|n IH]; intros c; cbn; [reflexivity | rewrite IH; reflexivity]. Qed.
  Lemma between_nth n : forall c d k dflt, (k < n)%nat -> nth k (between n c d) dflt = (repeated next (S k) c, d).
  Proof.
    induction n as [|n IH]; intros c d k dflt H; [lia|]. cbn [ChallengeModel.between]. destruct k as [|k]; [reflexivity|].
    cbn [nth]. rewrite IH by lia. reflexivity.
  Qed.
  Lemma lookup_app t : forall x l1 y l2,
    lookup t x (l1 ++ y :: l2) = if (t <=? length l1)%nat then nth t (x :: l1) y else lookup (t - S (length l1)) y l2.
  Proof.
    induction t as [|t IH]; intros x l1 y l2; [reflexivity|].
    destruct l1 as [|z l1]; cbn [app ChallengeModel.lookup_padded].
    - cbn [length]. replace (S t <=? 0)%nat with false by reflexivity. replace (S t - 1)%nat with t by lia. reflexivity.
    - rewrite IH. cbn [length]. replace (S t <=? S (length l1))%nat with (t <=? length l1)%nat by reflexivity.
      destruct (t <=? length l1)%nat; [reflexivity|]. reflexivity.
  Qed.
  Lemma lookup_app_end t : forall x l1 y l2, (t = S (length l1)) -> lookup t x (l1 ++ y :: l2) = y.
  Proof. intros x l1 y l2 ->. rewrite lookup_app. replace (S (length l1) <=? length l1)%nat with false by (symmetry; apply Nat.leb_gt; lia). rewrite Nat.sub_diag. reflexivity. Qed.

  (** [k] VDF heights before the last block *)
  Fixpoint sched (l : list header) (k : nat) : N * N :=
    match l with
    | [] => (0, 0)
    | [g] => (repeated before k (h_challenge g), h_space_diff g)
    | b :: ((p :: _) as l') =>
      if (k =? 0)%nat then own b
      else if (k <? h_vdf_count b)%nat then (repeated next (h_vdf_count b - k) (h_challenge p), h_space_diff p)
      else sched l' (k - h_vdf_count b)
    end.

  Lemma sched_cons b p l k : sched (b :: p :: l) k =
    if (k =? 0)%nat then own b else if (k <? h_vdf_count b)%nat then (repeated next (h_vdf_count b - k) (h_challenge p), h_space_diff p) else sched (p :: l) (k - h_vdf_count b).
  Proof. reflexivity. Qed.

  Lemma check_facts p b : check p b = true -> h_height b <> 0 ->
    (1 <= h_vdf_count b <= max_vdf_count)%nat /\ h_vdf_height b = (h_vdf_height p + h_vdf_count b)%nat /\
    (h_space_fork b = false -> h_challenge b = repeated next (h_vdf_count b) (h_challenge p) /\ h_space_diff b = h_space_diff p).
  Proof.
    unfold check_header, calc_next_challenge. cbv zeta. intros H Hh. rewrite !andb_true_iff in H. destruct H as [[[H1 H2] H3] H4].
    apply orb_true_iff in H1. destruct H1 as [H1|H1]; [apply N.eqb_eq in H1; contradiction|].
    apply Nat.leb_le in H1, H2. apply Nat.eqb_eq in H3. split; [lia|]. split; [exact H3|].
    intros Hf. destruct (draws _ _ || _); rewrite !andb_true_iff in H4; destruct H4 as [[H4 H5] H6].
    - rewrite Hf in H5. discriminate.
    - destruct H6 as [H6 _]. apply N.eqb_eq in H4, H6. split; [exact H4 | exact H6].
  Qed.

  Lemma anc_some l : forall b t, chained (b :: l) -> exists a, anc t b = Some a.
  Proof.
    induction l as [|p l IH]; intros b t H.
    - inversion H as [g Hh Hv Hn|]; subst. destruct t as [|t]; [exists []; reflexivity|]. cbn [ancestors]. unfold find_prev. rewrite Hn, Hh. exists []. reflexivity.
    - inversion H as [|b' p' l' Hc Hp Hh Hv]; subst. destruct t as [|t]; [exists []; reflexivity|]. cbn [ancestors]. unfold find_prev. rewrite Hp.
      destruct (IH p t Hc) as [a ->]. exists (p :: a). reflexivity.
  Qed.
  Lemma lookup_before k : forall x, lookup k x [] = (repeated before k (fst x), snd x).
  Proof. induction k as [|k IH]; intros [c d]; cbn [ChallengeModel.lookup_padded repeated]; [reflexivity|]. rewrite IH. reflexivity. Qed.
  Lemma values_cons b l : values (b :: l) = own b :: tl (values (b :: l)).
  Proof. destruct l; reflexivity. Qed.
  Lemma lookup_sched l : forall b t u a, chained (b :: l) -> (t <= u)%nat -> anc u b = Some a -> lookup t (own b) (tl (values (b :: a))) = sched (b :: l) t.
  Proof.
    induction l as [|p l IH]; intros b t u a H Hu Ha.
    - inversion H as [g Hh Hv Hn|]; subst.
      assert (a = []) as -> by (destruct u; cbn [ancestors] in Ha; [congruence | unfold find_prev in Ha; rewrite Hn, Hh in Ha; cbn in Ha; congruence]).
      cbn [values tl sched]. rewrite lookup_before. reflexivity.
    - inversion H as [|b' p' l' Hc Hp Hh Hv]; subst. destruct (check_facts p b Hv Hh) as (Hcnt & _ & _).
      destruct t as [|t]; [reflexivity|]. destruct u as [|u]; [lia|]. cbn [ancestors] in Ha. unfold find_prev in Ha. rewrite Hp in Ha.
      destruct (anc u p) as [a'|] eqn:Ea; [|discriminate]. injection Ha as <-.
      change (values (b :: p :: a')) with (own b :: rev (between (h_vdf_count b - 1) (h_challenge p) (h_space_diff p)) ++ values (p :: a')).
      cbn [tl]. rewrite (values_cons p a'), lookup_app, rev_length, between_length. cbn [sched]. replace (S t =? 0)%nat with false by reflexivity.
      destruct (S t <=? h_vdf_count b - 1)%nat eqn:E1.
      + apply Nat.leb_le in E1. replace (S t <? h_vdf_count b)%nat with true by (symmetry; apply Nat.ltb_lt; lia).
        cbn [nth]. rewrite rev_nth by (rewrite between_length; lia). rewrite between_length, between_nth by lia. f_equal. f_equal. lia.
      + apply Nat.leb_gt in E1. replace (S t <? h_vdf_count b)%nat with false by (symmetry; apply Nat.ltb_ge; lia).
        replace (S t - S (h_vdf_count b - 1))%nat with (S t - h_vdf_count b)%nat by lia. apply (IH p _ u a' Hc); [lia | exact Ea].
  Qed.
  (** what the lookup gives *)
  Lemma find_eq b l o : chained (b :: l) ->
    find b o = if (challenge_delay <? o)%nat
               then (if (max_vdf_count <? o - challenge_delay)%nat then None else Some (repeated next (o - challenge_delay) (h_challenge b), h_space_diff b))
               else Some (sched (b :: l) (challenge_delay - o)).
  Proof.
    intros H. unfold find_challenge. destruct (challenge_delay <? o)%nat eqn:E; [reflexivity|].
    destruct (anc_some l b (challenge_delay - o) H) as [a Ea]. rewrite Ea, challenges_values, values_cons.
    rewrite (lookup_sched l b _ _ a H (le_n _) Ea). reflexivity.
  Qed.

  Lemma chained_tail b p l : chained (b :: p :: l) -> chained (p :: l).
  Proof. inversion 1; assumption. Qed.
  Lemma chained_app m : forall a l, chained (m ++ a :: l) -> chained (a :: l).
  Proof. induction m as [|x m IH]; intros a l H; [exact H|]. apply IH. cbn [app] in H. destruct (m ++ a :: l) as [|p r] eqn:E; [destruct m; discriminate|]. eapply chained_tail, H. Qed.
  Lemma heights_below l : forall b, chained (b :: l) -> forall x, In x l -> (h_vdf_height x < h_vdf_height b)%nat.
  Proof.
    induction l as [|p l IH]; intros b H x Hx; [contradiction|]. inversion H as [|b' p' l' Hc Hp Hh Hv]; subst.
    destruct (check_facts p b Hv Hh) as (Hcnt & Hvh & _). destruct Hx as [<-|Hx]; [lia|]. specialize (IH p Hc x Hx). lia.
  Qed.

  (** the schedule of the whole chain *)
  Lemma sched_at l : forall b k, chained (b :: l) -> challenge_at next before (b :: l) (Z.of_nat (h_vdf_height b) - Z.of_nat k) (fst (sched (b :: l) k)) (snd (sched (b :: l) k)).
  Proof.
    induction l as [|p l IH]; intros b k H.
    - inversion H as [g Hh Hv Hn|]; subst. cbn [sched fst snd]. destruct k as [|k].
      + apply (at_block _ _ _ _ _ _ b 0%nat); [left; reflexivity | lia | intros b' [<-|[]] _; lia | apply steps_none | reflexivity].
      + apply (at_before _ _ _ _ _ _ b (S k)); [left; reflexivity | lia | lia | intros b' [<-|[]]; lia | apply steps_repeated | reflexivity].
    - pose proof (heights_below _ _ H) as Hb. inversion H as [|b' p' l' Hc Hp Hh Hv]; subst. destruct (check_facts p b Hv Hh) as (Hcnt & Hvh & _).
      pose proof (heights_below _ _ Hc) as Hbp.
      cbn [sched]. destruct (k =? 0)%nat eqn:E0.
      + apply Nat.eqb_eq in E0. subst k. apply (at_block _ _ _ _ _ _ b 0%nat); [left; reflexivity | lia | | apply steps_none | reflexivity].
        intros x [<-|Hx] _; [lia | specialize (Hb x Hx); lia].
      + apply Nat.eqb_neq in E0. destruct (k <? h_vdf_count b)%nat eqn:E1.
        * apply Nat.ltb_lt in E1. apply (at_block _ _ _ _ _ _ p (h_vdf_count b - k)); [right; left; reflexivity | lia | | apply steps_repeated | reflexivity].
          intros x [<-|[<-|Hx]] Hle; [lia | lia | specialize (Hbp x Hx); lia].
        * apply Nat.ltb_ge in E1. specialize (IH p (k - h_vdf_count b)%nat Hc).
          replace (Z.of_nat (h_vdf_height b) - Z.of_nat k)%Z with (Z.of_nat (h_vdf_height p) - Z.of_nat (k - h_vdf_count b))%Z by lia.
          destruct IH as [y n Hin Hn Hmax Hs Hd | g n Hin Hn Hpos Hmin Hs Hd].
          -- apply (at_block _ _ _ _ _ _ y n); [right; exact Hin | exact Hn | | exact Hs | exact Hd].
             intros x [<-|Hx] Hle; [lia | apply (Hmax x Hx Hle)].
          -- apply (at_before _ _ _ _ _ _ g n); [right; exact Hin | exact Hn | exact Hpos | | exact Hs | exact Hd].
             intros x [<-|Hx]; [|apply (Hmin x Hx)]. destruct Hin as [<-|Hin]; [|specialize (Hbp g Hin)]; lia.
  Qed.
  Lemma advance_at b l n : chained (b :: l) -> challenge_at next before (b :: l) (Z.of_nat (h_vdf_height b) + Z.of_nat n) (repeated next n (h_challenge b)) (h_space_diff b).
  Proof.
    intros H. pose proof (heights_below _ _ H) as Hb. apply (at_block _ _ _ _ _ _ b n); [left; reflexivity | lia | | apply steps_repeated | reflexivity].
    intros x [<-|Hx] _; [lia | specialize (Hb x Hx); lia].
  Qed.
  Lemma same_block l a b : chained l -> In a l -> In b l -> h_vdf_height a = h_vdf_height b -> a = b.
  Proof.
    induction l as [|x l IH]; intros H Ha Hb E; [contradiction|]. pose proof (heights_below _ _ H) as Hx.
    destruct Ha as [<-|Ha], Hb as [<-|Hb]; [reflexivity | specialize (Hx _ Hb); lia | specialize (Hx _ Ha); lia |].
    destruct l as [|p l]; [contradiction|]. apply IH; [eapply chained_tail, H | exact Ha | exact Hb | exact E].
  Qed.
  Lemma at_unique l v c d c' d' : chained l -> challenge_at next before l v c d -> challenge_at next before l v c' d' -> c = c' /\ d = d'.
  Proof.
    intros H [b n Hin Hn Hmax Hs Hd | g n Hin Hn Hpos Hmin Hs Hd] [b' n' Hin' Hn' Hmax' Hs' Hd' | g' n' Hin' Hn' Hpos' Hmin' Hs' Hd'].
    - assert (b = b') as <- by (apply (same_block l); try assumption; specialize (Hmax b' Hin'); specialize (Hmax' b Hin); lia).
      assert (n = n') as <- by lia. rewrite (steps_det _ _ _ _ Hs), (steps_det _ _ _ _ Hs'). subst. auto.
    - specialize (Hmin' b Hin). lia.
    - specialize (Hmin b' Hin'). lia.
    - assert (g = g') as <- by (apply (same_block l); try assumption; specialize (Hmin g' Hin'); specialize (Hmin' g Hin); lia).
      assert (n = n') as <- by lia. rewrite (steps_det _ _ _ _ Hs), (steps_det _ _ _ _ Hs'). subst. auto.
  Qed.

  (** a later block changes nothing before its own VDF height *)
  Lemma find_step b p l i j : chained (b :: p :: l) -> (h_vdf_height p + i = h_vdf_height b + j)%nat ->
    (challenge_delay <= j -> h_space_fork b = false)%nat -> (i <= challenge_delay + max_vdf_count)%nat -> find p i = find b j.
  Proof.
    intros H E Hf Hi. rewrite (find_eq b (p :: l) j H), (find_eq p l i (chained_tail _ _ _ H)).
    inversion H as [|b' p' l' Hc Hp Hh Hv]; subst. destruct (check_facts p b Hv Hh) as (Hcnt & Hvh & Hnf).
    assert (Eij : i = (h_vdf_count b + j)%nat) by lia. subst i.
    destruct (challenge_delay <? j)%nat eqn:Ej.
    - apply Nat.ltb_lt in Ej. destruct (Hnf (Hf ltac:(lia))) as [Hch Hsd].
      replace (challenge_delay <? h_vdf_count b + j)%nat with true by (symmetry; apply Nat.ltb_lt; lia).
      replace (max_vdf_count <? h_vdf_count b + j - challenge_delay)%nat with false by (symmetry; apply Nat.ltb_ge; lia).
      replace (max_vdf_count <? j - challenge_delay)%nat with false by (symmetry; apply Nat.ltb_ge; lia).
      rewrite Hch, Hsd, <- repeated_add. do 3 f_equal. lia.
    - apply Nat.ltb_ge in Ej. destruct (challenge_delay <? h_vdf_count b + j)%nat eqn:Ei.
      + apply Nat.ltb_lt in Ei. replace (max_vdf_count <? h_vdf_count b + j - challenge_delay)%nat with false by (symmetry; apply Nat.ltb_ge; lia).
        rewrite sched_cons. destruct (challenge_delay - j =? 0)%nat eqn:E0.
        * apply Nat.eqb_eq in E0. destruct (Hnf (Hf ltac:(lia))) as [Hch Hsd]. unfold own. rewrite Hch, Hsd. do 3 f_equal. lia.
        * apply Nat.eqb_neq in E0. replace (challenge_delay - j <? h_vdf_count b)%nat with true by (symmetry; apply Nat.ltb_lt; lia). do 3 f_equal. lia.
      + apply Nat.ltb_ge in Ei. rewrite sched_cons. replace (challenge_delay - j =? 0)%nat with false by (symmetry; apply Nat.eqb_neq; lia).
        replace (challenge_delay - j <? h_vdf_count b)%nat with false by (symmetry; apply Nat.ltb_ge; lia). do 2 f_equal. lia.
  Qed.
  Lemma find_agree m : forall a l b r i j, m ++ a :: l = b :: r -> chained (b :: r) -> (h_vdf_height a + i = h_vdf_height b + j)%nat ->
    (forall x, In x m -> (h_vdf_height x + challenge_delay <= h_vdf_height a + i)%nat -> h_space_fork x = false) -> (i <= challenge_delay + max_vdf_count)%nat ->
    find a i = find b j.
  Proof.
    induction m as [|x m IH]; intros a l b r i j E H Hv Hf Hi; cbn [app] in E.
    - injection E as -> _. f_equal. lia.
    - injection E as -> E. destruct r as [|p r]; [destruct m; discriminate|].
      assert (Hge : (h_vdf_height a <= h_vdf_height p)%nat).
      { pose proof (heights_below _ _ (chained_tail _ _ _ H)) as Hb. assert (In a (p :: r)) as Hin by (rewrite <- E; apply in_or_app; right; left; reflexivity).
        destruct Hin as [<-|Hin]; [lia | specialize (Hb _ Hin); lia]. }
      pose proof (heights_below _ _ H p (or_introl eq_refl)) as Hp.
      rewrite (IH a l p r i (h_vdf_height b + j - h_vdf_height p)%nat E (chained_tail _ _ _ H)); [|lia| |exact Hi].
      + apply (find_step b p r _ j H); [lia | | lia]. intros Hj. apply Hf; [left; reflexivity | lia].
      + intros y Hy. apply Hf. right. exact Hy.
  Qed.

  Lemma walk_ok l : forall b rounds h, chained (b :: l) -> (h_vdf_height b <= rounds)%nat ->
    exists m a r, walk_back get_header rounds h b = Some a /\ b :: l = m ++ a :: r /\ (h_vdf_height a <= h)%nat /\ (forall x, In x m -> (h < h_vdf_height x)%nat).
  Proof.
    induction l as [|p l IH]; intros b rounds h H Hr.
    - exists [], b, []. inversion H as [g Hh Hv Hn|]; subst. repeat split; [|lia|intros x []].
      destruct rounds; cbn [walk_back]; rewrite Hv; reflexivity.
    - destruct (h <? h_vdf_height b)%nat eqn:E.
      + apply Nat.ltb_lt in E. inversion H as [|b' p' l' Hc Hp Hh Hv]; subst. destruct (check_facts p b Hv Hh) as (Hcnt & Hvh & _).
        destruct rounds as [|rounds]; [lia|]. destruct (IH p rounds h Hc ltac:(lia)) as (m & a & r & H1 & H2 & H3 & H4).
        exists (b :: m), a, r. split; [|split; [|split]].
        * cbn [walk_back]. replace (h <? h_vdf_height b)%nat with true by (symmetry; apply Nat.ltb_lt; exact E). unfold find_prev. rewrite Hp. exact H1.
        * cbn [app]. rewrite H2. reflexivity.
        * exact H3.
        * intros x [<-|Hx]; [exact E | apply (H4 x Hx)].
      + exists [], b, (p :: l). split; [|split; [|split]]; [destruct rounds; cbn [walk_back]; rewrite E; reflexivity | reflexivity | apply Nat.ltb_ge, E | intros x []].
  Qed.
End P.
