(** Proofs about the reward for the VDF *)
Require Import List Arith NArith Bool Lia Sorted Permutation.
From Verif Require Import VrwModel VrwSpec.
Import ListNotations.
Open Scope N_scope.

Definition asc : list (N * N) -> Prop := StronglySorted (fun x y => fst x < fst y).
Fixpoint look (c : N) (m : list (N * N)) : N := match m with [] => 0 | (b, n) :: r => if b =? c then n else look c r end.
Lemma look_low c m : (forall e, In e m -> c < fst e) -> look c m = 0.
Proof.
  induction m as [|[b n] r IH]; intros H; [easy|]. cbn. pose proof (H (b, n) (or_introl eq_refl)) as Q. cbn in Q.
  destruct (N.eqb_spec b c); [lia|]. apply IH. intros e E. apply H. now right.
Qed.
Lemma key_bump a m x : In x (map fst (bump a m)) <-> x = a \/ In x (map fst m).
Proof.
  induction m as [|[b n] r IH]; [cbn; intuition congruence|]. cbn [bump]. destruct (N.eqb_spec a b) as [->|NE]; [cbn; intuition congruence|].
  destruct (a <? b); cbn [map fst In]; [cbn; intuition congruence|]. rewrite IH. cbn. intuition congruence.
Qed.
Lemma asc_bump a m : asc m -> asc (bump a m).
Proof.
  induction m as [|[b n] r IH]; intros S; [repeat constructor|]. cbn [bump]. pose proof S as S0. apply StronglySorted_inv in S. destruct S as [S F]. rewrite Forall_forall in F.
  destruct (N.eqb_spec a b) as [->|NE].
  - constructor; [exact S|]. rewrite Forall_forall. exact F.
  - destruct (N.ltb_spec a b) as [L|L].
    + constructor; [exact S0|]. rewrite Forall_forall. intros e [<-|E]; [exact L|]. apply F in E. cbn in *. lia.
    + constructor; [now apply IH|]. rewrite Forall_forall. intros e E. apply (in_map fst) in E. apply key_bump in E. destruct E as [E|E]; [cbn; lia|].
      apply in_map_iff in E. destruct E as [e' [E1 E2]]. apply F in E2. cbn in *. lia.
Qed.
Lemma look_bump a m c : asc m -> look c (bump a m) = if c =? a then inc (look a m) else look c m.
Proof.
  induction m as [|[b n] r IH]; intros S.
  - cbn. rewrite (N.eqb_sym a c). now destruct (c =? a).
  - apply StronglySorted_inv in S. destruct S as [S F]. rewrite Forall_forall in F. cbn [bump]. destruct (N.eqb_spec a b) as [->|NE].
    + cbn. rewrite N.eqb_refl. rewrite (N.eqb_sym b c). now destruct (c =? b).
    + destruct (N.ltb_spec a b) as [L|L].
      * assert (Z : look a ((b, n) :: r) = 0) by (apply look_low; intros e [<-|E]; [exact L|]; apply F in E; cbn in *; lia). rewrite Z. cbn [look]. rewrite (N.eqb_sym a c). now destruct (c =? a).
      * cbn [look]. rewrite IH by easy. destruct (N.eqb_spec b c) as [->|Q].
        -- rewrite (proj2 (N.eqb_neq c a)) by congruence. easy.
        -- now rewrite (proj2 (N.eqb_neq b a)) by congruence.
Qed.
Lemma look_in m c n : asc m -> In (c, n) m -> look c m = n.
Proof.
  induction m as [|[b k] r IH]; intros S; [easy|]. apply StronglySorted_inv in S. destruct S as [S F]. rewrite Forall_forall in F. cbn. intros [[= -> ->]|E]; [now rewrite N.eqb_refl|].
  pose proof (F _ E) as Q. cbn in Q. destruct (N.eqb_spec b c); [lia|]. now apply IH.
Qed.

Definition counts (L : list N) (m : list (N * N)) : Prop := asc m /\ (forall c, look c m = times c L) /\ (forall c, In c (map fst m) <-> In c L).
Lemma counts_perm L L' m : Permutation L L' -> counts L m -> counts L' m.
Proof.
  intros P [A [B C]]. split; [exact A|]. split.
  - intros c. rewrite B. unfold times. now rewrite (proj1 (Permutation_count_occ N.eq_dec L L') P c).
  - intros c. rewrite C. split; apply Permutation_in; [exact P|now apply Permutation_sym].
Qed.
Lemma times_le c L : times c L <= N.of_nat (length L).
Proof. unfold times. pose proof (count_occ_bound N.eq_dec c L). lia. Qed.
Lemma counts_one a L m : N.of_nat (length L) + 1 < 2 ^ 32 -> counts L m -> counts (a :: L) (bump a m).
Proof.
  intros H [A [B C]]. split; [now apply asc_bump|]. split.
  - intros c. rewrite look_bump by easy. rewrite !B. unfold times. cbn [count_occ]. destruct (N.eqb_spec c a) as [->|NE].
    + destruct (N.eq_dec a a) as [_|Q]; [|easy]. unfold inc. pose proof (times_le a L) as T. unfold times in T. rewrite N.mod_small by lia. lia.
    + destruct (N.eq_dec a c) as [Q|_]; [congruence|easy].
  - intros c. rewrite key_bump, C. cbn. intuition congruence.
Qed.
Lemma counts_many l L m : N.of_nat (length (l ++ L)) < 2 ^ 32 -> counts L m -> counts (l ++ L) (fold_left (fun m a => bump a m) l m).
Proof.
  revert L m. induction l as [|a l IH]; intros L m H C; [exact C|]. cbn [fold_left]. apply (counts_perm (l ++ a :: L)); [apply Permutation_sym, Permutation_middle|].
  rewrite app_length in H. cbn [length] in H. apply IH; [rewrite app_length; cbn [length]; lia|]. apply counts_one; [lia|exact C].
Qed.

Section NODE.
  Variables (find : N -> option header) (hash2 : N -> N -> N).

  Lemma nth_cut {A} (l : list A) i x : nth_error l i = Some x -> skipn i l = x :: skipn (S i) l.
  Proof. revert i. induction l as [|y l IH]; intros [|i] H; try discriminate; [now injection H as ->|]. cbn [skipn nth_error] in *. now rewrite (IH i H). Qed.
  Lemma between_S (l : list header) i j p : nth_error l i = Some p -> (i < j)%nat -> between i j l = p :: between (S i) j l.
  Proof. intros H L. unfold between. rewrite (nth_cut l i p H). replace (j - i)%nat with (S (j - S i)) by lia. reflexivity. Qed.
  Lemma between_nil (l : list header) i : between i i l = [].
  Proof. unfold between. now rewrite Nat.sub_diag. Qed.

  Lemma collect_spec l n : chain find l -> forall i j b m, nth_error l i = Some b -> (i <= j)%nat -> N.of_nat (length (named (between (i - n) j l))) < 2 ^ 32 -> counts (named (between i j l)) m ->
    exists m' b', collect find n b m = (m', b') /\ nth_error l (i - n) = Some b' /\ counts (named (between (i - n) j l)) m'.
  Proof.
    intros [C1 [C2 C3]]. induction n as [|n IH]; intros i j b m N L H C.
    - rewrite Nat.sub_0_r. now exists m, b.
    - cbn [collect]. destruct i as [|i].
      + rewrite (C2 b N). now exists m, b.
      + destruct (nth_error l i) as [p|] eqn:E; [|apply nth_error_None in E; assert (Q : (S i < length l)%nat) by (apply nth_error_Some; congruence); lia].
        rewrite (C1 i p b E N). replace (S i - S n)%nat with (i - n)%nat in * by lia. apply IH; [exact E|lia|exact H|].
        rewrite (between_S l i j p E) by lia. unfold named. cbn [flat_map]. apply counts_many; [|exact C].
        assert (Q : (length (named (between i j l)) <= length (named (between (i - n) j l)))%nat).
        { clear - L. assert (G : forall k, (k <= i)%nat -> (length (named (between i j l)) <= length (named (between (i - k) j l)))%nat).
          { induction k as [|k IH]; intros K; [rewrite Nat.sub_0_r; lia|]. destruct (nth_error l (i - S k)) as [q|] eqn:E.
            - rewrite (between_S l (i - S k) j q E) by lia. replace (S (i - S k)) with (i - k)%nat by lia. unfold named in *. cbn [flat_map]. rewrite app_length. specialize (IH ltac:(lia)). lia.
            - apply nth_error_None in E. unfold between. rewrite (skipn_all2 l (n := i)) by lia. rewrite firstn_nil. cbn. lia. }
          destruct (Nat.le_ge_cases n i) as [Q|Q]; [now apply G|]. replace (i - n)%nat with (i - i)%nat by lia. now apply G. }
        rewrite (between_S l i j p E) in Q by lia. unfold named in Q at 1. cbn [flat_map] in Q. unfold named in *. lia.
  Qed.

  (** choosing *)
  Variable proof : N.
  Notation h := (fun a => hash2 a proof).
  Definition beats (a n b k : N) : Prop := k < n \/ (k = n /\ (h a < h b \/ (h a = h b /\ a < b))).
  Lemma pick_spec m : asc m -> (forall e, In e m -> 0 < snd e) ->
    match fold_left (pick hash2 proof) m (None, 0, 0) with
    | (Some a, n, x) => x = h a /\ In (a, n) m /\ forall b k, In (b, k) m -> b <> a -> beats a n b k
    | (None, n, x) => m = [] /\ n = 0
    end.
  Proof.
    induction m as [|[c k] m IH] using rev_ind; intros S P; [easy|]. rewrite fold_left_app. cbn [fold_left].
    assert (SM : asc m /\ forall e, In e m -> fst e < c).
    { clear - S. unfold asc in *. induction m as [|e m IH]; [split; [constructor|easy]|]. cbn in S. apply StronglySorted_inv in S. destruct S as [S F]. destruct (IH S) as [IH1 IH2]. rewrite Forall_forall in F. split.
      - constructor; [exact IH1|]. rewrite Forall_forall. intros x X. apply F. apply in_or_app. now left.
      - intros x [<-|X]; [|now apply IH2]. apply (F (c, k)). apply in_or_app. right. now left. }
    destruct SM as [S1 S2]. assert (P1 : forall e, In e m -> 0 < snd e) by (intros e E; apply P, in_or_app; now left). specialize (IH S1 P1).
    assert (K : 0 < k) by (apply (P (c, k)), in_or_app; right; now left).
    destruct (fold_left (pick hash2 proof) m (None, 0, 0)) as [[[a|] n] x].
    - destruct IH as [-> [I B]]. unfold pick. pose proof (S2 _ I) as AC. cbn [fst] in AC. destruct ((n <? k) || ((k =? n) && (hash2 c proof <? hash2 a proof))) eqn:Q.
      + split; [easy|]. split; [apply in_or_app; right; now left|]. intros b j IB NE. apply in_app_or in IB. destruct IB as [IB|[[= <- <-]|[]]]; [|easy].
        apply orb_true_iff in Q. rewrite andb_true_iff, !N.ltb_lt, N.eqb_eq in Q. destruct (N.eq_dec b a) as [->|NA].
        * pose proof (look_in m a n S1 I) as E1. pose proof (look_in m a j S1 IB) as E2. unfold beats. lia.
        * specialize (B b j IB NA). unfold beats in *. lia.
      + split; [easy|]. split; [apply in_or_app; now left|]. intros b j IB NE. apply in_app_or in IB. destruct IB as [IB|[[= <- <-]|[]]]; [now apply B|].
        apply orb_false_iff in Q. destruct Q as [Q1 Q2]. apply N.ltb_ge in Q1. unfold beats. destruct (N.eqb_spec k n) as [->|NK]; [|lia]. cbn in Q2. apply N.ltb_ge in Q2. lia.
    - destruct IH as [-> ->]. unfold pick. rewrite (proj2 (N.ltb_lt 0 k) K). cbn [orb]. split; [easy|]. split; [now left|]. intros b j [[= <- <-]|[]] NE. easy.
  Qed.
  Lemma most_one w a b : most h w a -> most h w b -> a = b.
  Proof.
    intros [A1 A2] [B1 B2]. destruct (N.eq_dec a b) as [E|NE]; [exact E|]. specialize (A2 b B1 ltac:(congruence)). specialize (B2 a A1 NE). lia.
  Qed.
  Lemma choose_spec L m : counts L m -> let r := fst (fst (fold_left (pick hash2 proof) m (None, 0, 0))) in
    (forall a, r = Some a <-> most h L a) /\ (r = None <-> L = []).
  Proof.
    intros [A [B C]].
    assert (IN : forall c, In c L -> In (c, times c L) m).
    { intros c I. apply C in I. apply in_map_iff in I. destruct I as [[c' n] [E I]]. cbn in E. subst c'. rewrite <- B. now rewrite (look_in m c n A I). }
    assert (NI : forall c n, In (c, n) m -> In c L /\ n = times c L).
    { intros c n I. split; [apply C; now apply (in_map fst) in I|]. rewrite <- B. symmetry. now apply look_in. }
    assert (P : forall e, In e m -> 0 < snd e).
    { intros [c n] I. apply NI in I. destruct I as [I ->]. cbn. unfold times. apply (count_occ_In N.eq_dec) in I. lia. }
    pose proof (pick_spec m A P) as Q. destruct (fold_left (pick hash2 proof) m (None, 0, 0)) as [[[a|] n] x]; cbn [fst].
    - destruct Q as [_ [I Q]]. pose proof (NI a n I) as [IL EN]. assert (M : most h L a). { split; [exact IL|]. intros b IB NE. specialize (Q b _ (IN b IB) NE). unfold beats in Q. rewrite EN in Q. exact Q. }
      split; [|split; [discriminate|intros E; rewrite E in IL; easy]]. intros b. split; [intros [= <-]; exact M|]. intros MB. f_equal. now apply (most_one L).
    - destruct Q as [Q _]. assert (E : L = []). { destruct L as [|c L]; [easy|]. specialize (IN c (or_introl eq_refl)). rewrite Q in IN. easy. }
      split; [|easy]. intros a. split; [discriminate|]. intros [I _]. now rewrite E in I.
  Qed.
End NODE.

Lemma winner_spec find hash2 interval l i b : chain find l -> nth_error l i = Some b ->
  let from := (i - N.to_nat interval)%nat in let w := named (between from i l) in N.of_nat (length w) < 2 ^ 32 ->
  exists o, nth_error l from = Some o /\ (forall a, winner find hash2 interval b = Some a <-> most (fun a => hash2 a (h_proof o)) w a) /\ (winner find hash2 interval b = None <-> w = []).
Proof.
  intros C N from w H. destruct (collect_spec find l (N.to_nat interval) C i i b [] N (le_n i) H) as [m [o [E [NO CN]]]].
  { rewrite between_nil. split; [constructor|]. split; [easy|]. cbn. tauto. }
  exists o. split; [exact NO|]. unfold winner. rewrite E. now apply choose_spec.
Qed.

Lemma back_spec infusion tree prev n : forall output out o pts, back infusion tree prev n output out = Some (o, pts) ->
  exists new, pts = new ++ out /\ length new = n /\ (forall p, In p new -> In p tree) /\ linked o new output.
Proof.
  induction n as [|n IH]; intros output out o pts E; cbn [back] in E.
  - injection E as <- <-. now exists [].
  - destruct (infusion prev (N.of_nat n)) as [[inf it]|]; [|discriminate]. destruct (List.find _ tree) as [p|] eqn:F; [|discriminate].
    apply find_some in F. destruct F as [IT F]. rewrite !andb_true_iff, !N.eqb_eq in F. apply IH in E. destruct E as [new [-> [L [T K]]]]. exists (new ++ [p]). split; [now rewrite <- app_assoc|]. split; [rewrite app_length; cbn; lia|]. split.
    + intros q Q. apply in_app_or in Q. destruct Q as [Q|[<-|[]]]; [now apply T|exact IT].
    + clear - K F. revert o K. induction new as [|x new IH]; intros o K; cbn in *; [split; [congruence|apply F]|]. split; [apply K|]. now apply IH.
Qed.

Lemma linked_snoc l : forall from p to, linked from (l ++ [p]) to -> linked from l (p_input p) /\ p_output p = to.
Proof. induction l as [|x l IH]; intros from p to; cbn; [intros [H1 H2]; split; congruence|]. intros [H1 H2]. apply IH in H2. tauto. Qed.
Lemma back_full infusion tree prev : (forall p q, In p tree -> In q tree -> p_output p = p_output q -> p_infuse p = p_infuse q -> p_iters p = p_iters q -> p = q) ->
  forall pts from to out, linked from pts to -> (forall i p, nth_error pts i = Some p -> In p tree /\ infusion prev (N.of_nat i) = Some (p_infuse p, p_iters p)) ->
  back infusion tree prev (length pts) to out = Some (from, pts ++ out).
Proof.
  intros U. induction pts as [|p pts IH] using rev_ind; intros from to out L H; [cbn in *; now subst|]. rewrite app_length, Nat.add_1_r. cbn [back].
  destruct (H (length pts) p) as [T I]; [rewrite nth_error_app2, Nat.sub_diag by lia; reflexivity|]. rewrite I. apply linked_snoc in L. destruct L as [L O].
  destruct (List.find _ tree) as [q|] eqn:F.
  - apply find_some in F. destruct F as [TQ F]. rewrite !andb_true_iff, !N.eqb_eq in F. assert (Q : q = p) by (apply U; try easy; destruct F as [[F1 F2] F3]; congruence). subst q. rewrite <- app_assoc. apply IH; [exact L|].
    intros i x X. apply H. rewrite nth_error_app1; [exact X|]. apply nth_error_Some. congruence.
  - exfalso. apply (find_none _ _ F) in T. rewrite O, !N.eqb_refl in T. discriminate.
Qed.
