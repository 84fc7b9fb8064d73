Require Import List Arith NArith ZArith QArith Qround Bool Lia Lqa Permutation Sorted.
From Verif Require Import CtlModel CtlSpec.
Import List ListNotations.
Open Scope Q_scope.

(** ** The median *)
Lemma leb_le a b : Qle_bool a b = true <-> a <= b.
Proof. apply Qle_bool_iff. Qed.
Lemma leb_gt a b : Qle_bool a b = false <-> b < a.
Proof.
  destruct (Qlt_le_dec b a) as [L|L]; split; intros E; auto.
  - destruct (Qle_bool a b) eqn:X; auto. apply leb_le in X. exfalso. apply (Qlt_not_le _ _ L X).
  - apply leb_le in L. congruence.
  - exfalso. apply (Qlt_not_le _ _ E L).
Qed.

Lemma insert_perm x l : Permutation (insert x l) (x :: l).
Proof. induction l as [|y l IH]; cbn; [reflexivity|]. destruct (Qle_bool x y); [reflexivity|]. rewrite IH. apply perm_swap. Qed.
Lemma sort_perm l : Permutation (sort l) l.
Proof. induction l as [|x l IH]; cbn; [reflexivity|]. rewrite insert_perm. now constructor. Qed.
Lemma insert_sorted x l : StronglySorted Qle l -> StronglySorted Qle (insert x l).
Proof.
  induction 1 as [|y l S IH F]; cbn; [repeat constructor|]. destruct (Qle_bool x y) eqn:E.
  - apply leb_le in E. constructor; [now constructor|]. constructor; auto. eapply Forall_impl; [|exact F]. intros z. cbn. intros. lra.
  - apply leb_gt in E. constructor; auto. rewrite Forall_forall in *. intros z I. apply (Permutation_in _ (insert_perm x l)) in I. destruct I as [<-|I]; [lra|auto].
Qed.
Lemma sort_sorted l : StronglySorted Qle (sort l).
Proof. induction l; cbn; [constructor|now apply insert_sorted]. Qed.

Definition count (f : Q -> bool) (l : list Q) : nat := List.length (filter f l).
Lemma count_one f x : count f [x] = if f x then 1%nat else 0%nat.
Proof. unfold count. cbn. now destruct (f x). Qed.
Lemma count_app f a b : count f (a ++ b) = (count f a + count f b)%nat.
Proof. unfold count. now rewrite filter_app, app_length. Qed.
Lemma count_le f l : (count f l <= List.length l)%nat.
Proof. unfold count. induction l as [|x l IH]; cbn; auto. destruct (f x); cbn; lia. Qed.
Lemma count_perm f a b : Permutation a b -> count f a = count f b.
Proof. unfold count. induction 1; cbn; auto; [destruct (f x)|destruct (f x), (f y)|]; cbn; congruence. Qed.
Lemma count_all f l : (forall x, In x l -> f x = true) -> count f l = List.length l.
Proof. unfold count. induction l as [|x l IH]; intros A; cbn; auto. rewrite (A x (or_introl eq_refl)). cbn. rewrite IH; auto. intros; apply A; now right. Qed.
Lemma count_none f l : (forall x, In x l -> f x = false) -> count f l = 0%nat.
Proof. unfold count. induction l as [|x l IH]; intros A; cbn; auto. rewrite (A x (or_introl eq_refl)). apply IH. intros; apply A; now right. Qed.

(** a property with one boundary: it holds below it, or above it *)
Definition one_sided (f : Q -> bool) : Prop := (exists b, forall x, f x = Qle_bool x b) \/ (exists a, forall x, f x = Qle_bool a x).
Lemma ends x m y : StronglySorted Qle (x :: m ++ [y]) -> forall z, In z m -> x <= z <= y.
Proof.
  intros S z I. inversion S as [|? ? S' F]; subst. rewrite Forall_forall in F. split; [apply F, in_or_app; now left|].
  clear F S. induction m as [|w m IH]; [destruct I|]. cbn in S'. inversion S' as [|? ? S2 F]; subst. rewrite Forall_forall in F.
  destruct I as [->|I]; [apply F, in_or_app; right; now left|auto].
Qed.
Lemma ends_xy x m y : StronglySorted Qle (x :: m ++ [y]) -> x <= y.
Proof. intros S. inversion S as [|? ? _ F]; subst. rewrite Forall_forall in F. apply F, in_or_app. right. now left. Qed.
Lemma mid_sorted x m y : StronglySorted Qle (x :: m ++ [y]) -> StronglySorted Qle m.
Proof.
  intros S. inversion S as [|? ? S' _]; subst. clear S. induction m as [|w m IH]; [constructor|]. cbn in S'. inversion S' as [|? ? S2 F]; subst.
  constructor; auto. rewrite Forall_forall in *. intros z I. apply F, in_or_app. now left.
Qed.
Lemma both_all f x m y : one_sided f -> StronglySorted Qle (x :: m ++ [y]) -> f x = true -> f y = true -> forall z, In z m -> f z = true.
Proof.
  intros [(b & F)|(a & F)] S X Y z I; rewrite F in *; apply leb_le; apply leb_le in X, Y; pose proof (ends _ _ _ S z I); lra.
Qed.
Lemma both_none f x m y : one_sided f -> StronglySorted Qle (x :: m ++ [y]) -> f x = false -> f y = false -> forall z, In z m -> f z = false.
Proof.
  intros [(b & F)|(a & F)] S X Y z I; rewrite F in *; apply leb_gt; apply leb_gt in X, Y; pose proof (ends _ _ _ S z I); lra.
Qed.
Lemma split_ends (l : list Q) : (2 < List.length l)%nat -> exists x m y, l = x :: m ++ [y] /\ removelast (tl l) = m.
Proof.
  destruct l as [|x t]; cbn; [lia|]. intros L. destruct (@exists_last _ t) as (m & y & ->); [destruct t; [cbn in L; lia|congruence]|].
  exists x, m, y. split; auto. apply removelast_last.
Qed.

Lemma trim_keeps f : one_sided f -> forall n l, (List.length l <= n)%nat -> StronglySorted Qle l -> l <> [] ->
  let r := trim n l in
  StronglySorted Qle r /\ r <> [] /\ (List.length r <= 2)%nat /\ Nat.even (List.length r) = Nat.even (List.length l) /\
  ((List.length l < 2 * count f l)%nat -> (List.length r < 2 * count f r)%nat) /\ ((List.length l <= 2 * count f l)%nat -> (List.length r <= 2 * count f r)%nat).
Proof.
  intros OS. induction n as [|n IH]; intros l LE SS NE; cbn [trim].
  - destruct l; [congruence|cbn in LE; lia].
  - destruct (Nat.ltb_spec 2 (List.length l)) as [L|L].
    + destruct (split_ends l L) as (x & m & y & -> & ->). pose proof (mid_sorted _ _ _ SS) as SM.
      assert (LM : List.length (x :: m ++ [y]) = S (S (List.length m))) by (cbn; rewrite app_length; cbn; lia).
      rewrite LM in *.
      assert (NM : m <> []) by (destruct m; [cbn in L; lia|congruence]).
      destruct (IH m ltac:(lia) SM NM) as (A1 & A2 & A3 & A4 & A5 & A6). split; [exact A1|]. split; [exact A2|]. split; [exact A3|]. split; [exact A4|].
      assert (CE : count f (x :: m ++ [y]) = (count f [x] + count f m + count f [y])%nat) by (change (x :: m ++ [y]) with ([x] ++ m ++ [y]); rewrite !count_app; lia).
      rewrite CE. pose proof (both_all f x m y OS SS) as BA. pose proof (both_none f x m y OS SS) as BN. pose proof (count_le f m).
      rewrite !count_one. destruct (f x), (f y).
      * rewrite (count_all f m) in * by auto. split; intros; [apply A5|apply A6]; lia.
      * split; intros; [apply A5|apply A6]; lia.
      * split; intros; [apply A5|apply A6]; lia.
      * rewrite (count_none f m) in * by auto. split; intros; lia.
    + split; [exact SS|]. split; [exact NE|]. split; [lia|]. split; [reflexivity|]. auto.
Qed.

Definition le_b (b : Q) : Q -> bool := fun x => Qle_bool x b.
Definition ge_a (a : Q) : Q -> bool := fun x => Qle_bool a x.
Lemma os_le b : one_sided (le_b b). Proof. left. exists b. reflexivity. Qed.
Lemma os_ge a : one_sided (ge_a a). Proof. right. exists a. reflexivity. Qed.

(** the two, or the one, that are left *)
Lemma shape (r : list Q) : r <> [] -> (List.length r <= 2)%nat -> (exists x, r = [x]) \/ (exists x y, r = [x; y]).
Proof. destruct r as [|x [|y [|]]]; cbn; intros; [congruence|eauto|eauto|lia]. Qed.
Lemma mean1 x : total [x] / inject_Z (Z.of_nat 1) == x.
Proof. unfold total. cbn. field. Qed.
Lemma mean2 x y : total [x; y] / inject_Z (Z.of_nat 2) == (x + y) / 2.
Proof. unfold total. cbn. field. Qed.

Definition left_over (l : list Q) := trim (List.length l) (sort l).
Lemma left_over_keeps f l : one_sided f -> l <> [] -> let r := left_over l in
  StronglySorted Qle r /\ r <> [] /\ (List.length r <= 2)%nat /\ Nat.even (List.length r) = Nat.even (List.length l) /\
  ((List.length l < 2 * count f l)%nat -> (List.length r < 2 * count f r)%nat) /\ ((List.length l <= 2 * count f l)%nat -> (List.length r <= 2 * count f r)%nat).
Proof.
  intros OS NE. unfold left_over. pose proof (sort_perm l) as P. pose proof (Permutation_length P) as PL.
  destruct (trim_keeps f OS (List.length l) (sort l)) as (A1 & A2 & A3 & A4 & A5 & A6); [lia|apply sort_sorted|destruct l; [congruence|]; intros E; rewrite E in PL; discriminate|].
  rewrite PL, (count_perm f _ _ P) in *. auto 10.
Qed.
Lemma get_median_eq l : l <> [] -> get_median l = Some (total (left_over l) / inject_Z (Z.of_nat (List.length (left_over l)))).
Proof. destruct l; [congruence|reflexivity]. Qed.

Lemma upper l m b : get_median l = Some m -> (List.length l < 2 * count (le_b b) l)%nat -> m <= b.
Proof.
  intros E C. assert (NE : l <> []) by (intros ->; discriminate). rewrite get_median_eq in E by auto. injection E as <-.
  destruct (left_over_keeps (le_b b) l (os_le b) NE) as (A1 & A2 & A3 & A4 & A5 & A6). specialize (A5 C). clear A6 C.
  destruct (shape _ A2 A3) as [(x & R)|(x & y & R)]; rewrite R in *; unfold count, le_b in A5; cbn [filter List.length] in *.
  - rewrite mean1. destruct (Qle_bool x b) eqn:X; cbn in A5; [now apply leb_le|lia].
  - rewrite mean2. destruct (Qle_bool x b) eqn:X, (Qle_bool y b) eqn:Y; cbn in A5; try lia. apply leb_le in X, Y. apply Qle_shift_div_r; lra.
Qed.
Lemma lower l m a : get_median l = Some m -> (List.length l < 2 * count (ge_a a) l)%nat -> a <= m.
Proof.
  intros E C. assert (NE : l <> []) by (intros ->; discriminate). rewrite get_median_eq in E by auto. injection E as <-.
  destruct (left_over_keeps (ge_a a) l (os_ge a) NE) as (A1 & A2 & A3 & A4 & A5 & A6). specialize (A5 C). clear A6 C.
  destruct (shape _ A2 A3) as [(x & R)|(x & y & R)]; rewrite R in *; unfold count, ge_a in A5; cbn [filter List.length] in *.
  - rewrite mean1. destruct (Qle_bool a x) eqn:X; cbn in A5; [now apply leb_le|lia].
  - rewrite mean2. destruct (Qle_bool a x) eqn:X, (Qle_bool a y) eqn:Y; cbn in A5; try lia. apply leb_le in X, Y. apply Qle_shift_div_l; lra.
Qed.
Lemma majority_median a b l m : majority a b l -> get_median l = Some m -> a <= m <= b.
Proof.
  intros M E. unfold majority in M.
  assert (W : forall f, (forall x, between a b x = true -> f x = true) -> (List.length (filter (between a b) l) <= count f l)%nat).
  { intros f I. unfold count. clear - I. induction l as [|x l IH]; cbn; auto. destruct (between a b x) eqn:B; [rewrite (I x B); cbn; lia|destruct (f x); cbn; lia]. }
  split; [apply (lower l)|apply (upper l)]; auto.
  - pose proof (W (ge_a a)) as Q. assert (forall x, between a b x = true -> ge_a a x = true) as I by (unfold between; intros x B; now apply andb_true_iff in B as (? & _)). specialize (Q I). lia.
  - pose proof (W (le_b b)) as Q. assert (forall x, between a b x = true -> le_b b x = true) as I by (unfold between; intros x B; now apply andb_true_iff in B as (_ & ?)). specialize (Q I). lia.
Qed.

Lemma count_sub f l : forall x, In x l -> f x = true -> (1 <= count f l)%nat.
Proof. unfold count. induction l as [|y l IH]; intros x I X; [destruct I|]. cbn. destruct I as [->|I]; [rewrite X; cbn; lia|]. specialize (IH x I X). destruct (f y); cbn; lia. Qed.

Lemma is_median l v : median l v -> exists m, get_median l = Some m /\ m == v.
Proof.
  intros [l0 lo x hi P LL LO HI|l0 lo x y hi P LL LO XY HI]; clear l v; rename l0 into l.
  - assert (NE : l <> []) by (intros ->; apply Permutation_nil in P; destruct lo; discriminate).
    pose proof (Permutation_length P) as PL. rewrite app_length in PL. cbn in PL.
    exists (total (left_over l) / inject_Z (Z.of_nat (List.length (left_over l)))). split; [now apply get_median_eq|].
    pose proof (get_median_eq l NE) as E. apply Qle_antisym.
    + apply (upper l _ x E). rewrite (count_perm _ _ _ P), count_app. rewrite (count_all _ lo) by (intros; apply leb_le; auto).
      change (x :: hi) with ([x] ++ hi). rewrite count_app, (count_all _ [x]); [cbn; lia|]. intros z [<-|[]]. apply leb_le. lra.
    + apply (lower l _ x E). rewrite (count_perm _ _ _ P), count_app, (count_all _ (x :: hi)); [cbn; lia|]. intros z [<-|I]; apply leb_le; [lra|auto].
  - assert (NE : l <> []) by (intros ->; apply Permutation_nil in P; destruct lo; discriminate).
    pose proof (Permutation_length P) as PL. rewrite app_length in PL. cbn in PL.
    exists (total (left_over l) / inject_Z (Z.of_nat (List.length (left_over l)))). split; [now apply get_median_eq|].
    assert (C1 : (List.length l <= 2 * count (le_b x) l)%nat).
    { rewrite (count_perm _ _ _ P), count_app, (count_all _ lo) by (intros; apply leb_le; auto). change (x :: y :: hi) with ([x] ++ y :: hi). rewrite count_app, (count_all _ [x]); [cbn; lia|].
      intros z [<-|[]]. apply leb_le. lra. }
    assert (C2 : (List.length l < 2 * count (ge_a x) l)%nat).
    { rewrite (count_perm _ _ _ P), count_app, (count_all _ (x :: y :: hi)); [cbn; lia|]. intros z [<-|[<-|I]]; apply leb_le; [lra|lra|]. specialize (HI z I). lra. }
    assert (C3 : (List.length l < 2 * count (le_b y) l)%nat).
    { rewrite (count_perm _ _ _ P). change (lo ++ x :: y :: hi) with (lo ++ [x; y] ++ hi). rewrite app_assoc, count_app, (count_all _ (lo ++ [x; y])); [rewrite app_length; cbn; lia|].
      intros z I. apply leb_le. apply in_app_iff in I as [I|[<-|[<-|[]]]]; [specialize (LO z I); lra|lra|lra]. }
    assert (C4 : (List.length l <= 2 * count (ge_a y) l)%nat).
    { rewrite (count_perm _ _ _ P). change (lo ++ x :: y :: hi) with (lo ++ [x] ++ y :: hi). rewrite app_assoc, count_app, (count_all _ (y :: hi)); [cbn; lia|].
      intros z [<-|I]; apply leb_le; [lra|auto]. }
    destruct (left_over_keeps (le_b x) l (os_le x) NE) as (S1 & N1 & L1 & E1 & _ & A1). specialize (A1 C1).
    destruct (left_over_keeps (ge_a x) l (os_ge x) NE) as (_ & _ & _ & _ & A2 & _). specialize (A2 C2).
    destruct (left_over_keeps (le_b y) l (os_le y) NE) as (_ & _ & _ & _ & A3 & _). specialize (A3 C3).
    destruct (left_over_keeps (ge_a y) l (os_ge y) NE) as (_ & _ & _ & _ & _ & A4). specialize (A4 C4).
    destruct (shape _ N1 L1) as [(u & R)|(u & v & R)]; rewrite R in *.
    + exfalso. rewrite PL in E1. cbn in E1. rewrite LL in E1. replace (List.length hi + S (S (List.length hi)))%nat with (2 * S (List.length hi))%nat in E1 by lia.
      pose proof (proj2 (Nat.even_spec (2 * S (List.length hi))) ltac:(exists (S (List.length hi)); lia)). congruence.
    + rewrite mean2. unfold count, le_b, ge_a in *. cbn [filter List.length] in *.
      inversion S1 as [|? ? _ F]; subst. inversion F as [|? ? UV _]; subst.
      destruct (Qle_bool x u) eqn:X1, (Qle_bool x v) eqn:X2; cbn in A2; try lia.
      destruct (Qle_bool u y) eqn:X3, (Qle_bool v y) eqn:X4; cbn in A3; try lia. apply leb_le in X1, X2, X3, X4.
      assert (U : u <= x). { destruct (Qle_bool u x) eqn:Z1; [now apply leb_le|]. destruct (Qle_bool v x) eqn:Z2; cbn in A1; [|lia]. apply leb_le in Z2. lra. }
      assert (V : y <= v). { destruct (Qle_bool y v) eqn:Z1; [now apply leb_le|]. destruct (Qle_bool y u) eqn:Z2; cbn in A4; [|lia]. apply leb_le in Z2. lra. }
      assert (UE : u == x) by lra. assert (VE : v == y) by lra. rewrite UE, VE. reflexivity.
Qed.

Lemma trim_in n : forall l x, In x (trim n l) -> In x l.
Proof.
  induction n as [|n IH]; intros l x I; cbn [trim] in I; auto. destruct (Nat.ltb_spec 2 (List.length l)) as [L|L]; auto.
  destruct (split_ends l L) as (a & m & b & -> & E). rewrite E in I. apply IH in I. right. apply in_or_app. now left.
Qed.
Lemma median_pos l m : (forall x, In x l -> 0 < x) -> get_median l = Some m -> 0 < m.
Proof.
  intros P E. assert (NE : l <> []) by (intros ->; discriminate). rewrite get_median_eq in E by auto. injection E as <-.
  destruct (left_over_keeps (le_b 0) l (os_le 0) NE) as (_ & A2 & A3 & _).
  assert (PO : forall x, In x (left_over l) -> 0 < x).
  { intros x I. apply P. apply trim_in in I. apply (Permutation_in _ (sort_perm l)) in I. exact I. }
  destruct (shape _ A2 A3) as [(x & R)|(x & y & R)]; rewrite R in *; cbn [List.length].
  - rewrite mean1. apply PO. now left.
  - rewrite mean2. pose proof (PO x (or_introl eq_refl)). pose proof (PO y (or_intror (or_introl eq_refl))). apply Qlt_shift_div_l; lra.
Qed.

(** ** The sources *)
Lemma source_eqb_spec a b : reflect (a = b) (source_eqb a b).
Proof. destruct a, b; constructor; congruence. Qed.
Lemma mem_iff k l : mem k l = true <-> In k l.
Proof.
  unfold mem. rewrite existsb_exists. split; [intros (x & I & E); destruct (source_eqb_spec k x); [now subst|discriminate]|].
  intros I. exists k. split; auto. destruct (source_eqb_spec k k); congruence.
Qed.
Lemma mem_not k l : mem k l = false <-> ~ In k l.
Proof. rewrite <- mem_iff. destruct (mem k l); split; congruence. Qed.
Lemma positive_iff p x : positive p = Some x <-> p = Some x /\ 0 < x.
Proof.
  unfold positive. destruct p as [y|]; [|split; [discriminate|intros (? & _); discriminate]]. destruct (Qle_bool y 0) eqn:E.
  - apply leb_le in E. split; [discriminate|]. intros (X & L). injection X as ->. lra.
  - apply leb_gt in E. split; [intros X; injection X as <-; auto|intros (X & _); exact X].
Qed.
Lemma parse_iff k c p : parse k c = Some p <-> tells k c p.
Proof.
  split.
  - intros E. destruct c as [lb pr|b a|].
    + assert (k <> Swissquote) by (intros ->; discriminate). assert (lb = true /\ positive pr = Some p) as (-> & PP) by (destruct k, lb; try discriminate E; try congruence; auto).
      apply positive_iff in PP as (-> & ?). now constructor.
    + destruct k; try discriminate E. cbn in E. destruct (positive b) as [b'|] eqn:B; [|discriminate]. destruct (positive a) as [a'|] eqn:A; [|discriminate].
      apply positive_iff in B as (-> & B). apply positive_iff in A as (-> & A). destruct (Qle_bool (b' / a') (11 # 10)) eqn:R; [|discriminate]. injection E as <-. apply leb_le in R.
      constructor; auto. assert (X : b' == (b' / a') * a') by (field; lra). rewrite X. setoid_replace (a' * (11 # 10)) with ((11 # 10) * a') by ring. apply Qmult_le_compat_r; lra.
    + destruct k; discriminate.
  - intros [k' q NS L|b a B A R].
    + assert (PP : positive (Some q) = Some q) by (apply positive_iff; auto). destruct k'; try congruence; exact PP.
    + assert (PB : positive (Some b) = Some b) by (apply positive_iff; auto). assert (PA : positive (Some a) = Some a) by (apply positive_iff; auto).
      cbn [parse]. rewrite PB, PA. replace (Qle_bool (b / a) (11 # 10)) with true; auto. symmetry. apply leb_le. apply Qle_shift_div_r; [auto|]. rewrite Qmult_comm. exact R.
Qed.
Lemma expired_iff s now k : is_expired s now k = false <-> exists t c, files s k = Some (t, c) /\ (now <= t + 86400)%Z.
Proof.
  unfold is_expired. destruct (files s k) as [[t c]|].
  - rewrite Z.ltb_ge. change (3600 * 24)%Z with 86400%Z. split; [eauto|]. intros (t' & c' & E & L). injection E as <- <-. exact L.
  - split; [discriminate|]. intros (t & c & E & _). discriminate.
Qed.

Lemma quotes_same s s' now ks l : (forall k, files s' k = files s k) -> quotes s now ks l -> quotes s' now ks l.
Proof.
  intros F. assert (C : forall k p, counts s' now k p <-> counts s now k p) by (intros; unfold counts; rewrite F; tauto).
  induction 1 as [|k ks p l CO Q IH|k ks l CO Q IH]; [constructor|constructor; auto; now apply C|apply quotes_out; auto]. intros p X. apply C in X. now apply (CO p).
Qed.
Lemma quotes_fun s now ks l l' : quotes s now ks l -> quotes s now ks l' -> l = l'.
Proof.
  assert (C : forall k p q, counts s now k p -> counts s now k q -> p = q).
  { intros k p q (t & c & E & _ & T) (t' & c' & E' & _ & T'). rewrite E in E'. injection E' as <- <-. apply parse_iff in T, T'. congruence. }
  intros Q. revert l'. induction Q as [|k ks p l CO Q IH|k ks l CO Q IH]; intros l' Q'; inversion Q' as [|? ? q l2 CO2 Q2|? ? l2 CO2 Q2]; subst; auto.
  - rewrite (C _ _ _ CO CO2). f_equal. auto.
  - exfalso. now apply (CO2 p).
  - exfalso. now apply (CO q).
Qed.

Lemma look_fold now ks : forall s i ag st, exists s' l ag' new,
  fold_left (look now) ks (s, i, ag, st) = (s', i ++ l, ag', st ++ new) /\
  files s' = files s /\ vote s' = vote s /\ failed s' = failed s /\ pending s' = rev new ++ pending s /\ quotes s now ks l /\
  (forall k, In k new -> In k ks /\ is_expired s now k = true /\ ~ In k (failed s) /\ ~ In k (pending s)) /\ NoDup new /\
  (forall k, In k ks -> is_expired s now k = true -> In k new \/ In k (failed s) \/ In k (pending s)) /\
  (ag' = true <-> ag = true \/ exists k, In k ks /\ is_expired s now k = true).
Proof.
  induction ks as [|k ks IH]; intros s i ag st.
  - exists s, [], ag, []. cbn. rewrite !app_nil_r. split; [reflexivity|]. do 4 (split; [reflexivity|]). split; [constructor|]. split; [intros k []|]. split; [constructor|]. split; [intros k []|].
    split; [auto|]. intros [X|(k & [] & _)]. exact X.
  - cbn [fold_left look]. destruct (is_expired s now k) eqn:EX.
    + assert (NC : forall p, ~ counts s now k p).
      { intros p (t & c & F & L & _). assert (is_expired s now k = false) by (apply expired_iff; eauto). congruence. }
      unfold do_fetch. destruct (mem k (failed s)) eqn:MF, (mem k (pending s)) eqn:MP; cbn [negb andb].
      1-3: destruct (IH s i true st) as (s' & l & ag' & new & E & F & V & FA & PE & Q & N1 & ND & N2 & AG); exists s', l, ag', new; rewrite E; split; [reflexivity|];
        do 4 (split; [assumption|]); split; [now apply quotes_out|]; split; [intros x I; destruct (N1 x I) as (A & B); split; [now right|exact B]|]; split; [exact ND|];
        split; [intros x [<-|I] X; [right; rewrite <- !mem_iff; auto|auto]|]; rewrite AG; split; [intros _; right; exists k; split; [now left|exact EX]|intros _; now left].
      set (s1 := mk (files s) (k :: pending s) (failed s) (vote s)).
      destruct (IH s1 i true (st ++ [k])) as (s' & l & ag' & new & E & F & V & FA & PE & Q & N1 & ND & N2 & AG). exists s', l, ag', (k :: new). rewrite E. apply mem_not in MF, MP.
      split; [now rewrite <- app_assoc|]. split; [exact F|]. split; [exact V|]. split; [exact FA|].
      split; [rewrite PE; cbn; now rewrite <- app_assoc|]. split; [apply quotes_out; auto; apply (quotes_same s1); auto|].
      split.
      { intros x [<-|I]; [split; [now left|]; auto|]. destruct (N1 x I) as (A & B & C & D). split; [now right|]. split; [exact B|]. split; [exact C|]. intros Y. apply D. now right. }
      split. { constructor; auto. intros I. destruct (N1 k I) as (_ & _ & _ & D). apply D. now left. }
      split. { intros x [<-|I] X; [left; now left|]. destruct (N2 x I X) as [Y|[Y|[<-|Y]]]; [left; now right|auto|left; now left|auto]. }
      rewrite AG. split; [intros _; right; exists k; split; [now left|exact EX]|intros _; now left].
    + pose proof EX as EX'. apply expired_iff in EX' as (t & c & F0 & L). rewrite F0.
      assert (NX : forall x, In x (k :: ks) -> is_expired s now x = true -> In x ks) by (intros x [<-|I] X; [congruence|exact I]).
      destruct (parse k c) as [p|] eqn:PA.
      * destruct (IH s (i ++ [p]) ag st) as (s' & l & ag' & new & E & F & V & FA & PE & Q & N1 & ND & N2 & AG). exists s', (p :: l), ag', new. rewrite E.
        split; [now rewrite <- app_assoc|]. do 4 (split; [assumption|]). split; [constructor; auto; exists t, c; split; auto; split; auto; now apply parse_iff|].
        split; [intros x I; destruct (N1 x I) as (A & B); split; [now right|exact B]|]. split; [exact ND|]. split; [intros x I X; apply N2; auto|].
        rewrite AG. split; (intros [Y|(x & I & X)]; [now left|right; exists x; split; [auto; now right|exact X]]).
      * destruct (IH s i ag st) as (s' & l & ag' & new & E & F & V & FA & PE & Q & N1 & ND & N2 & AG). exists s', l, ag', new. rewrite E.
        split; [reflexivity|]. do 4 (split; [assumption|]).
        split. { apply quotes_out; auto. intros q (t' & c' & F' & _ & T). rewrite F0 in F'. injection F' as <- <-. apply parse_iff in T. congruence. }
        split; [intros x I; destruct (N1 x I) as (A & B); split; [now right|exact B]|]. split; [exact ND|]. split; [intros x I X; apply N2; auto|].
        rewrite AG. split; (intros [Y|(x & I & X)]; [now left|right; exists x; split; [auto; now right|exact X]]).
Qed.
