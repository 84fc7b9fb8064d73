(** Proofs about the table of farmed blocks and the ranking *)
Require Import List Arith NArith ZArith Bool Lia Sorted Permutation.
From Verif Require Import BytesLib OrdLib EngineModel EngineUpper CtrModel HistModel HistProofs OfqModel FrkModel FrkSpec.
Import List ListNotations.
Open Scope N_scope.

(** ** Lists *)
Lemma ss_unique {A} (R : A -> A -> Prop) : (forall x y, R x y -> R y x -> False) -> forall l1 l2, StronglySorted R l1 -> StronglySorted R l2 -> (forall x, In x l1 <-> In x l2) -> l1 = l2.
Proof.
  intros AS. induction l1 as [|x l1 IH]; intros l2 S1 S2 E.
  - destruct l2 as [|y l2]; auto. destruct (proj2 (E y) (or_introl eq_refl)).
  - destruct l2 as [|y l2]; [destruct (proj1 (E x) (or_introl eq_refl))|]. inversion_clear S1 as [|? ? S1' F1]. inversion_clear S2 as [|? ? S2' F2]. rewrite Forall_forall in F1, F2.
    assert (x = y) as <-.
    { destruct (proj1 (E x) (or_introl eq_refl)) as [->|I]; auto. destruct (proj2 (E y) (or_introl eq_refl)) as [->|J]; auto. destruct (AS x y); auto. }
    f_equal. apply IH; auto. intros z. split; intros I.
    + destruct (proj1 (E z) (or_intror I)) as [<-|J]; auto. destruct (AS x x); auto.
    + destruct (proj2 (E z) (or_intror I)) as [<-|J]; auto. destruct (AS x x); auto.
Qed.
Lemma ss_filter {A} (R : A -> A -> Prop) f l : StronglySorted R l -> StronglySorted R (filter f l).
Proof. induction 1 as [|x l S IH F]; cbn [filter]; [constructor|]. destruct (f x); auto. constructor; auto. rewrite Forall_forall in *. intros y Y. apply filter_In in Y. now apply F. Qed.
Lemma ss_nodup {A} (R : A -> A -> Prop) l : (forall x, ~ R x x) -> StronglySorted R l -> NoDup l.
Proof. intros IR. induction 1 as [|x l S IH F]; constructor; auto. rewrite Forall_forall in F. intros I. apply (IR x). auto. Qed.
Lemma ss_map {A B} (R : A -> A -> Prop) (Q : B -> B -> Prop) (f : A -> B) l : (forall x y, In x l -> In y l -> R x y -> Q (f x) (f y)) -> StronglySorted R l -> StronglySorted Q (map f l).
Proof.
  intros RQ S. induction S as [|x l S IH F]; cbn [map]; constructor.
  - apply IH. intros a b A1 B1. apply RQ; now right.
  - rewrite Forall_forall in *. intros y Y. apply in_map_iff in Y as (z & <- & Z). apply RQ; auto; [now left|now right].
Qed.
Lemma filter_ext_in' {A} (f g : A -> bool) l : (forall x, In x l -> f x = g x) -> filter f l = filter g l.
Proof. induction l as [|x l IH]; intros E; auto. cbn [filter]. rewrite IH by (intros; apply E; now right). now rewrite (E x (or_introl eq_refl)). Qed.
Lemma filter_all {A} (f : A -> bool) l : (forall x, In x l -> f x = true) -> filter f l = l.
Proof. induction l as [|x l IH]; intros E; auto. cbn [filter]. rewrite (E x (or_introl eq_refl)). f_equal. apply IH. intros. apply E. now right. Qed.
Lemma filter_perm {A} (f : A -> bool) l l' : Permutation l l' -> Permutation (filter f l) (filter f l').
Proof. induction 1; cbn [filter]; auto; repeat match goal with |- context [if ?x then _ else _] => destruct x end; auto; [apply perm_swap|eapply perm_trans; eauto]. Qed.
Lemma filter_filter {A} (f g : A -> bool) l : filter f (filter g l) = filter (fun x => g x && f x) l.
Proof. induction l as [|x l IH]; auto. cbn [filter]. destruct (g x); cbn [filter andb]; [destruct (f x)|]; now rewrite IH. Qed.
Lemma take_all {A} n (l : list A) : N.of_nat (List.length l) <= n -> take n l = l.
Proof. intros L. unfold take. rewrite N.min_r by lia. rewrite Nat2N.id. apply firstn_all. Qed.
Lemma take_firstn {A} n (l : list A) : take n l = firstn (N.to_nat n) l.
Proof.
  unfold take. destruct (N.le_gt_cases n (N.of_nat (List.length l))).
  - now rewrite N.min_l by lia.
  - rewrite N.min_r by lia. rewrite Nat2N.id, firstn_all, firstn_all2 by lia. auto.
Qed.

(** ** Counts *)
Fixpoint cnt (l : list (addr * N)) (f : addr) : N := match l with [] => 0 | (x, n) :: l => if addr_eqb x f then n else cnt l f end.
Lemma cnt_absent l f : ~ In f (map fst l) -> cnt l f = 0.
Proof. induction l as [|(x, n) l IH]; cbn [cnt map fst In]; auto. intros N. destruct (addr_eqb_spec x f); [tauto|]. apply IH. tauto. Qed.
Lemma cnt_in l f n : NoDup (map fst l) -> In (f, n) l -> cnt l f = n.
Proof.
  induction l as [|(x, m) l IH]; cbn [cnt map fst In]; [tauto|]. intros ND [[= -> ->]|I]; inversion_clear ND as [|? ? NI ND'].
  - destruct (addr_eqb_spec f f); congruence.
  - destruct (addr_eqb_spec x f) as [->|]; auto. destruct NI. change f with (fst (f, n)). now apply in_map.
Qed.
Lemma cnt_perm l l' f : NoDup (map fst l) -> Permutation l l' -> cnt l' f = cnt l f.
Proof.
  intros ND P. assert (ND' : NoDup (map fst l')) by (eapply Permutation_NoDup; [|exact ND]; now apply Permutation_map).
  destruct (in_dec (list_eq_dec N.eq_dec) f (map fst l)) as [I|I].
  - apply in_map_iff in I as ((x, n) & <- & I). cbn [fst]. rewrite (cnt_in _ _ _ ND I). apply cnt_in; auto. eapply Permutation_in; eauto.
  - rewrite !cnt_absent; auto. intros J. apply I. eapply Permutation_in; [|exact J]. apply Permutation_map. now symmetry.
Qed.
Lemma bump_keys k l : (In k (map fst l) /\ map fst (bump k l) = map fst l) \/ (~ In k (map fst l) /\ map fst (bump k l) = map fst l ++ [k]).
Proof.
  induction l as [|(x, n) l IH]; cbn [bump map fst In]; [right; auto|]. destruct (addr_eqb_spec x k) as [->|NE]; cbn [map fst]; [left; auto|].
  destruct IH as [(I & ->)|(I & ->)]; [left; auto|right; split; auto; intros [->|]; auto].
Qed.
Lemma bump_nodup k l : NoDup (map fst l) -> NoDup (map fst (bump k l)).
Proof.
  intros ND. destruct (bump_keys k l) as [(_ & ->)|(NI & ->)]; auto. eapply Permutation_NoDup; [apply Permutation_cons_append|]. now constructor.
Qed.
Lemma bump_cnt k l f : (k = f -> cnt l f + 1 < 2 ^ 32) -> cnt (bump k l) f = if addr_eqb k f then cnt l f + 1 else cnt l f.
Proof.
  induction l as [|(x, n) l IH]; cbn [bump cnt]; intros LT.
  - destruct (addr_eqb_spec k f); auto.
  - destruct (addr_eqb_spec x k) as [->|NE]; cbn [cnt].
    + destruct (addr_eqb_spec k f) as [->|]; auto. rewrite N.mod_small; auto.
    + destruct (addr_eqb_spec x f) as [->|]; [|auto]. destruct (addr_eqb_spec k f) as [->|]; congruence.
Qed.
Lemma drop_keys k l : map fst (drop_one k l) = map fst l.
Proof. induction l as [|(x, n) l IH]; cbn [drop_one map fst]; auto. destruct (addr_eqb x k); cbn [map fst]; congruence. Qed.
Lemma drop_cnt k l f : cnt (drop_one k l) f = if addr_eqb k f then cnt l f - 1 else cnt l f.
Proof.
  induction l as [|(x, n) l IH]; cbn [drop_one cnt].
  - destruct (addr_eqb k f); auto.
  - destruct (addr_eqb_spec x k) as [->|NE]; cbn [cnt].
    + destruct (addr_eqb_spec k f) as [->|]; auto. destruct (N.ltb_spec 0 n); lia.
    + destruct (addr_eqb_spec x f) as [->|]; [|auto]. destruct (addr_eqb_spec k f) as [->|]; congruence.
Qed.

(** ** Counts of a chain *)
Lemma count_cons b c f : count_of (b :: c) f = if negb (k_height_ b =? 0) && addr_eqb (k_farmer b) f then count_of c f + 1 else count_of c f.
Proof.
  unfold count_of. cbn [filter]. unfold farmed_by at 1. cbn [existsb]. rewrite orb_false_r, (proj2 (N.leb_le 0 _) (N.le_0_l _)), andb_true_r.
  destruct (negb (k_height_ b =? 0) && addr_eqb (k_farmer b) f); cbn [List.length]; lia.
Qed.
Lemma filter_length_le {A} (f : A -> bool) l : (List.length (filter f l) <= List.length l)%nat.
Proof. induction l as [|x l IH]; cbn [filter List.length]; auto. destruct (f x); cbn [List.length]; lia. Qed.
Lemma count_le c f : count_of c f <= N.of_nat (List.length c).
Proof. unfold count_of. pose proof (filter_length_le (farmed_by [f] 0) c). lia. Qed.

(** ** The table *)
Definition info_of (b : blk) : info := mk_info (k_height_ b) (k_reward b mod 2 ^ 32) (paid_to b).
Definition row_of (b : blk) : key * info := (((k_farmer b, k_height_ b), 0), info_of b).
Definition is_farmed (b : blk) : bool := negb (k_height_ b =? 0).
(** heights count down to 0 *)
Fixpoint counts_down (c : list blk) : Prop := match c with [] => True | b :: c => k_height_ b = N.of_nat (List.length c) /\ counts_down c end.
Definition holds (t : table) (c : list blk) : Prop := asorted key_cmp t /\ forall r, In r t <-> In r (map row_of (filter is_farmed c)).
Fixpoint chained (c : list (blk * table)) (t : table) : Prop := holds t (map fst c) /\ match c with [] => True | (b, t') :: c => chained c t' end.

Lemma down_lt c b : counts_down c -> In b c -> k_height_ b < N.of_nat (List.length c).
Proof. induction c as [|x c IH]; cbn [counts_down In List.length]; [tauto|]. intros (E & D) [->|I]; [lia|]. specialize (IH D I). lia. Qed.
Lemma down_sorted c : counts_down c -> StronglySorted (fun x y => k_height_ y < k_height_ x) c.
Proof. induction c as [|x c IH]; cbn [counts_down]; [constructor|]. intros (E & D). constructor; auto. apply Forall_forall. intros y Y. rewrite E. now apply down_lt. Qed.
Lemma down_inj c x y : counts_down c -> In x c -> In y c -> k_height_ x = k_height_ y -> x = y.
Proof.
  induction c as [|b c IH]; cbn [counts_down In]; [tauto|]. intros (E & D) [->|X] [->|Y] Q; auto.
  - apply down_lt in Y; auto. lia.
  - apply down_lt in X; auto. lia.
Qed.
Lemma down_filter h c : counts_down c -> counts_down (filter (fun b => k_height_ b <? h) c).
Proof.
  induction c as [|b c IH]; cbn [counts_down filter]; auto. intros (E & D). destruct (N.ltb_spec (k_height_ b) h); auto.
  rewrite filter_all; [cbn [counts_down]; auto|]. intros x X. apply N.ltb_lt. apply down_lt in X; auto. lia.
Qed.

Lemma holds_add t c b : holds t c -> counts_down (b :: c) -> is_farmed b = true -> holds (aset key_cmp (fst (row_of b)) (snd (row_of b)) t) (b :: c).
Proof.
  intros (SO & M) (E & D) F. split; [now apply (aset_sorted KT)|]. intros (k, v). rewrite (aset_In KT) by auto. cbn [filter]. rewrite F. cbn [map In]. rewrite M. split.
  - intros [(-> & ->)|(_ & I)]; [left; now destruct (row_of b)|now right].
  - intros [Q|I]; [left; rewrite Q; auto|]. right. split; auto. intros C. apply in_map_iff in I as (x & Q & X). apply filter_In in X as (X & _).
    subst k. unfold row_of in Q. injection Q as _ C _. apply down_lt in X; auto. lia.
Qed.
Lemma holds_same t c b : holds t c -> is_farmed b = false -> holds t (b :: c).
Proof. intros (SO & M) F. split; auto. intros r. cbn [filter]. rewrite F. auto. Qed.
Lemma db_revert_ok h c : forall t, counts_down (map fst c) -> chained c t -> let (c', t') := db_revert h c t in map fst c' = filter (fun b => k_height_ b <? h) (map fst c) /\ chained c' t'.
Proof.
  induction c as [|(b, t') c IH]; intros t D CH; cbn [db_revert map fst filter]; [auto|]. cbn [map fst counts_down] in D. destruct D as (E & D). cbn [chained] in CH. destruct CH as (HO & CH).
  destruct (N.leb_spec h (k_height_ b)) as [LE|LT].
  - rewrite (proj2 (N.ltb_ge _ _) LE). now apply IH.
  - rewrite (proj2 (N.ltb_lt _ _) LT). cbn [map fst]. rewrite filter_all; [split; auto; split; auto|]. intros x X. apply N.ltb_lt. apply down_lt in X; auto. lia.
Qed.
Lemma walk_ok h c : forall l, counts_down (map fst c) -> (forall f, cnt l f = count_of (map fst c) f) ->
  map fst (walk_back h c l) = map fst l /\ forall f, cnt (walk_back h c l) f = count_of (filter (fun b => k_height_ b <? h) (map fst c)) f.
Proof.
  induction c as [|(b, t') c IH]; intros l D E; cbn [walk_back map fst filter] in *; [auto|]. cbn [counts_down] in D. destruct D as (HB & D).
  destruct (N.leb_spec h (k_height_ b)) as [LE|LT].
  - rewrite (proj2 (N.ltb_ge _ _) LE). destruct (IH (if k_height_ b =? 0 then l else drop_one (k_farmer b) l) D) as (K & C).
    + intros f. specialize (E f). rewrite count_cons in E. destruct (k_height_ b =? 0); cbn [negb andb] in E; auto. rewrite drop_cnt. destruct (addr_eqb (k_farmer b) f); lia.
    + split; auto. rewrite K. destruct (k_height_ b =? 0); auto. apply drop_keys.
  - rewrite (proj2 (N.ltb_lt _ _) LT). split; auto. intros f. rewrite E. f_equal. f_equal. symmetry. apply filter_all. intros x X. apply N.ltb_lt. apply down_lt in X; auto. lia.
Qed.

(** ** Counting again *)
Definition rows_of (t : table) (f : addr) : N := N.of_nat (List.length (filter (fun r : key * info => addr_eqb (fst (fst (fst r))) f) t)).
Lemma recount_from t : forall l, NoDup (map fst l) -> (forall f, cnt l f + rows_of t f < 2 ^ 32) ->
  let l' := fold_left (fun l (r : key * info) => bump (fst (fst (fst r))) l) t l in NoDup (map fst l') /\ forall f, cnt l' f = cnt l f + rows_of t f.
Proof.
  induction t as [|r t IH]; intros l ND LT; cbn [fold_left]; [split; auto; intros f; cbn; lia|].
  assert (R : forall f, rows_of (r :: t) f = if addr_eqb (fst (fst (fst r))) f then rows_of t f + 1 else rows_of t f).
  { intros f. unfold rows_of. cbn [filter]. destruct (addr_eqb (fst (fst (fst r))) f); cbn [List.length]; lia. }
  assert (B : forall f, cnt (bump (fst (fst (fst r))) l) f = if addr_eqb (fst (fst (fst r))) f then cnt l f + 1 else cnt l f).
  { intros f. apply bump_cnt. intros Q. specialize (LT f). rewrite R in LT. destruct (addr_eqb_spec (fst (fst (fst r))) f); [lia|congruence]. }
  destruct (IH (bump (fst (fst (fst r))) l)) as (A1 & A2).
  - now apply bump_nodup.
  - intros f. specialize (LT f). rewrite R in LT. rewrite B. destruct (addr_eqb (fst (fst (fst r))) f); lia.
  - split; auto. intros f. rewrite A2, B, R. destruct (addr_eqb (fst (fst (fst r))) f); lia.
Qed.
Lemma asorted_nodup (t : table) : asorted key_cmp t -> NoDup t.
Proof.
  unfold asorted. induction t as [|r t IH]; cbn [map]; intros S; constructor; inversion_clear S as [|? ? S' F]; auto. intros I. rewrite Forall_forall in F.
  apply (in_map fst) in I. apply F in I. now apply (klt_irrefl KT) in I.
Qed.
Lemma rows_nodup c : counts_down c -> NoDup (map row_of (filter is_farmed c)).
Proof.
  intros D. apply (ss_nodup (fun x y : key * info => k_height (fst y) < k_height (fst x))); [intros x; lia|]. apply (ss_map (fun x y => k_height_ y < k_height_ x)); [auto|]. apply ss_filter. now apply down_sorted.
Qed.
Lemma holds_perm t c : counts_down c -> holds t c -> Permutation t (map row_of (filter is_farmed c)).
Proof. intros D (SO & M). apply NoDup_Permutation; auto; [now apply asorted_nodup|now apply rows_nodup]. Qed.
Lemma filter_map' {A B} (f : B -> bool) (g : A -> B) l : filter f (map g l) = map g (filter (fun x => f (g x)) l).
Proof. induction l as [|x l IH]; auto. cbn [map filter]. destruct (f (g x)); cbn [map]; now rewrite IH. Qed.
Lemma rows_count t c f : counts_down c -> holds t c -> rows_of t f = count_of c f.
Proof.
  intros D HO. unfold rows_of, count_of. f_equal. rewrite (Permutation_length (filter_perm _ _ _ (holds_perm _ _ D HO))). rewrite filter_map', map_length, filter_filter. f_equal.
  apply filter_ext. intros b. unfold is_farmed, farmed_by. cbn [row_of fst existsb]. rewrite orb_false_r, (proj2 (N.leb_le 0 _) (N.le_0_l _)), andb_true_r. reflexivity.
Qed.
Lemma recount_ok t c : counts_down c -> N.of_nat (List.length c) < 2 ^ 32 -> holds t c -> NoDup (map fst (recount t)) /\ forall f, cnt (recount t) f = count_of c f.
Proof.
  intros D LT HO. destruct (recount_from t []) as (A & B).
  - constructor.
  - intros f. cbn [cnt]. rewrite (rows_count _ _ _ D HO). pose proof (count_le c f). lia.
  - split; auto. intros f. unfold recount. rewrite B. cbn [cnt]. rewrite (rows_count _ _ _ D HO). lia.
Qed.

(** ** All states *)
Section RUN.
  Variable sort : list (addr * N) -> list (addr * N).
  Hypothesis SORT : sorts sort.
  (** [fine]: nothing failed late *)
  Record inv (fine : bool) (c : list blk) (s : node) : Prop := mk_inv {
    v_chain : map fst (w_chain s) = c; v_down : counts_down c; v_few : N.of_nat (List.length c) < 2 ^ 32; v_held : chained (w_chain s) (w_table s);
    v_once : fine = true -> NoDup (map fst (w_ranking s)); v_order : StronglySorted (fun x y => snd y <= snd x) (w_ranking s); v_count : fine = true -> forall f, cnt (w_ranking s) f = count_of c f }.
  Lemma sort_ok l : NoDup (map fst l) -> NoDup (map fst (sort l)) /\ forall f, cnt (sort l) f = cnt l f.
  Proof. intros ND. destruct (SORT l) as (P & _). split; [eapply Permutation_NoDup; [|exact ND]; now apply Permutation_map|]. intros f. now apply cnt_perm. Qed.
  Lemma sort_sorted l : StronglySorted (fun x y => snd y <= snd x) (sort l). Proof. apply SORT. Qed.

  Lemma chained_holds c t : chained c t -> holds t (map fst c). Proof. destruct c as [|(b, t') c]; cbn [chained]; tauto. Qed.
  Lemma revert_inv fine c s deep h : inv fine c s -> inv fine (filter (fun b => k_height_ b <? h) c) (revert sort deep h s).
  Proof.
    intros [<- V2 V3 V4 V5 V6 V7]. unfold revert. pose proof (db_revert_ok h (w_chain s) (w_table s) V2 V4) as DB. destruct (db_revert h (w_chain s) (w_table s)) as (c', t'). destruct DB as (D1 & D2).
    pose proof (down_filter h _ V2) as DN. assert (FEW : N.of_nat (List.length (filter (fun b => k_height_ b <? h) (map fst (w_chain s)))) < 2 ^ 32) by (pose proof (filter_length_le (fun b => k_height_ b <? h) (map fst (w_chain s))); lia).
    assert (HO : holds t' (filter (fun b => k_height_ b <? h) (map fst (w_chain s)))) by (rewrite <- D1; now apply chained_holds).
    destruct (recount_ok _ _ DN FEW HO) as (R1 & R2).
    constructor; cbn [w_chain w_table w_ranking]; auto.
    - intros FN. destruct deep; cbn [orb]; [now apply sort_ok|]. destruct (walk_ok h (w_chain s) (w_ranking s) V2 (V7 FN)) as (W1 & W2). destruct (walk_back h (w_chain s) (w_ranking s)) as [|e l] eqn:E; [now apply sort_ok|].
      apply sort_ok. rewrite W1. auto.
    - apply sort_sorted.
    - intros FN f. destruct deep; cbn [orb]; [rewrite (proj2 (sort_ok _ R1)); auto|]. destruct (walk_ok h (w_chain s) (w_ranking s) V2 (V7 FN)) as (W1 & W2). destruct (walk_back h (w_chain s) (w_ranking s)) as [|e l] eqn:E.
      + rewrite (proj2 (sort_ok _ R1)); auto.
      + rewrite (proj2 (sort_ok (e :: l) ltac:(rewrite W1; auto))). auto.
  Qed.
  Lemma recount_keys f t : forall l, In f (map fst (fold_left (fun l (r : key * info) => bump (fst (fst (fst r))) l) t l)) -> In f (map fst l) \/ 0 < rows_of t f.
  Proof.
    induction t as [|r t IH]; intros l I; cbn [fold_left] in I; [now left|]. unfold rows_of in *. cbn [filter]. apply IH in I as [I|I].
    - destruct (bump_keys (fst (fst (fst r))) l) as [(_ & Q)|(_ & Q)]; rewrite Q in I; [now left|]. apply in_app_iff in I as [I|[I|[]]]; [now left|]. right. destruct (addr_eqb_spec (fst (fst (fst r))) f); [cbn [List.length]; lia|congruence].
    - right. destruct (addr_eqb (fst (fst (fst r))) f); cbn [List.length]; lia.
  Qed.
  Lemma restart_inv fine c s h : inv fine c s -> let s' := revert sort true h (mk_node (w_chain s) (w_table s) []) in
    inv true (filter (fun b => k_height_ b <? h) c) s' /\ forall f n, In (f, n) (w_ranking s') -> 0 < n.
  Proof.
    intros [<- V2 V3 V4 V5 V6 V7]. unfold revert. cbn [w_chain w_table w_ranking orb]. pose proof (db_revert_ok h (w_chain s) (w_table s) V2 V4) as DB. destruct (db_revert h (w_chain s) (w_table s)) as (c', t'). destruct DB as (D1 & D2).
    pose proof (down_filter h _ V2) as DN. assert (FEW : N.of_nat (List.length (filter (fun b => k_height_ b <? h) (map fst (w_chain s)))) < 2 ^ 32) by (pose proof (filter_length_le (fun b => k_height_ b <? h) (map fst (w_chain s))); lia).
    assert (HO : holds t' (filter (fun b => k_height_ b <? h) (map fst (w_chain s)))) by (rewrite <- D1; now apply chained_holds).
    destruct (recount_ok _ _ DN FEW HO) as (R1 & R2). cbn [w_ranking]. split.
    - constructor; cbn [w_chain w_table w_ranking]; auto.
      + intros _. now apply sort_ok.
      + apply sort_sorted.
      + intros _ f. rewrite (proj2 (sort_ok _ R1)). auto.
    - intros f n I. apply (Permutation_in _ (Permutation_sym (proj1 (SORT _)))) in I. pose proof (cnt_in _ _ _ R1 I) as <-. rewrite R2, <- (rows_count _ _ f DN HO).
      apply (in_map fst) in I. unfold recount in I. apply recount_keys in I as [I|I]; auto. destruct I.
  Qed.
  Lemma next_ok fine c s : inv fine c s -> next_height s = N.of_nat (List.length c).
  Proof. intros V. pose proof (v_down _ _ _ V) as D. rewrite <- (v_chain _ _ _ V) in *. unfold next_height. destruct (w_chain s) as [|(b, t) l]; auto. cbn [map fst counts_down List.length] in *. lia. Qed.
  Lemma keep_all c h : counts_down c -> h = N.of_nat (List.length c) -> filter (fun b => k_height_ b <? h) c = c.
  Proof. intros D ->. apply filter_all. intros b B. apply N.ltb_lt. now apply down_lt. Qed.
  Definition op_ok (o : op) : Prop := match o with Apply b | Fail _ _ b => k_height_ b < 2 ^ 32 - 1 | _ => True end.
  Definition fine_op (o : op) : bool := match o with Fail true _ _ => false | _ => true end.
  Lemma step_inv fine c s s' o : inv fine c s -> op_ok o -> (fine = true -> fine_op o = true) -> step sort s o = Some s' -> inv fine (after c o) s'.
  Proof.
    intros V OK FO E. pose proof (next_ok _ _ _ V) as NX. destruct o as [b|late deep b|deep h|h]; cbn [step after] in *.
    - destruct (N.eqb_spec (k_height_ b) (next_height s)) as [HB|]; [|discriminate]. injection E as <-. rewrite NX in HB. destruct V as [V1 V2 V3 V4 V5 V6 V7]. cbn [op_ok] in OK.
      assert (DN : counts_down (b :: c)) by (split; auto). assert (FEW : N.of_nat (List.length (b :: c)) < 2 ^ 32) by (cbn [List.length]; lia).
      pose proof (chained_holds _ _ V4) as HO. rewrite V1 in HO.
      unfold apply_ok, note_block. destruct (N.eqb_spec (k_height_ b) 0) as [Z|NZ]; constructor; cbn [w_chain w_table w_ranking map fst]; auto; try (rewrite V1; reflexivity).
      + split; [|exact V4]. cbn [map fst]. rewrite V1. apply holds_same; auto. unfold is_farmed. now rewrite Z.
      + intros FN f. rewrite count_cons, Z. cbn. auto.
      + split; [|exact V4]. cbn [map fst]. rewrite V1. apply (holds_add _ _ b); auto. unfold is_farmed. now rewrite (proj2 (N.eqb_neq _ _) NZ).
      + intros FN. apply sort_ok. apply bump_nodup. auto.
      + apply sort_sorted.
      + intros FN f. rewrite (proj2 (sort_ok _ (bump_nodup _ _ (V5 FN)))). rewrite count_cons, (proj2 (N.eqb_neq _ _) NZ). cbn [negb andb]. rewrite bump_cnt; [now rewrite V7|].
        intros _. rewrite V7 by auto. pose proof (count_le c f). cbn [List.length] in FEW. lia.
    - destruct (N.eqb_spec (k_height_ b) (next_height s)) as [HB|]; [|discriminate]. injection E as <-. rewrite NX in HB. unfold apply_fails.
      rewrite <- (keep_all c (k_height_ b)) by (auto; apply V). apply revert_inv. destruct V as [V1 V2 V3 V4 V5 V6 V7]. destruct late.
      + cbn [fine_op] in FO. destruct fine; [discriminate FO; auto|]. constructor; cbn [w_chain w_table w_ranking]; auto; try discriminate. unfold note_block. destruct (k_height_ b =? 0); auto. cbn [w_ranking]. apply sort_sorted.
      + constructor; cbn [w_chain w_table w_ranking]; auto.
    - injection E as <-. now apply revert_inv.
    - injection E as <-. destruct (restart_inv _ _ _ h V) as (RV & _). destruct RV as [A1 A2 A3 A4 A5 A6 A7]. constructor; auto.
  Qed.
  Lemma run_inv fine l : forall c s s', inv fine c s -> Forall op_ok l -> (fine = true -> forallb fine_op l = true) -> run sort s l = Some s' -> inv fine (fold_left after l c) s'.
  Proof.
    induction l as [|o l IH]; intros c s s' V OK FO E; cbn [run fold_left forallb] in *; [now injection E as <-|]. inversion_clear OK as [|? ? O1 O2].
    destruct (step sort s o) as [s1|] eqn:X; [|discriminate]. eapply IH; eauto.
    - eapply step_inv; eauto. intros Q. apply FO in Q. now apply andb_true_iff in Q.
    - intros Q. apply FO in Q. now apply andb_true_iff in Q.
  Qed.
  Lemma start_inv fine : inv fine [] start.
  Proof.
    constructor; cbn [start w_chain w_table w_ranking map chained]; auto.
    - exact I.
    - reflexivity.
    - split; auto. split; [constructor|]. intros r. reflexivity.
    - intros _. constructor.
    - constructor.
  Qed.
  Lemma ranks_of c s : inv true c s -> ranks c (w_ranking s).
  Proof.
    intros [V1 V2 V3 V4 V5 V6 V7]. specialize (V5 eq_refl). specialize (V7 eq_refl). constructor; auto.
    - intros f n I. rewrite <- V7. symmetry. now apply cnt_in.
    - intros f P. rewrite <- V7 in P. destruct (in_dec (list_eq_dec N.eq_dec) f (map fst (w_ranking s))) as [I|I]; auto. rewrite cnt_absent in P by auto. lia.
  Qed.
End RUN.

(** ** Ranges *)
Section QUERY.
  Variables (s : node) (c : list blk).
  Hypothesis CH : map fst (w_chain s) = c.
  Hypothesis DN : counts_down c.
  Hypothesis FEW : N.of_nat (List.length c) < 2 ^ 32.
  Hypothesis HO : holds (w_table s) c.

  Lemma farmed_iff farmers since b : farmed_by farmers since b = true <-> k_height_ b <> 0 /\ In (k_farmer b) farmers /\ since <= k_height_ b.
  Proof.
    unfold farmed_by. rewrite !andb_true_iff, negb_true_iff, N.eqb_neq, N.leb_le, existsb_exists. split.
    - intros ((A & (x & X & Q)) & B). destruct (addr_eqb_spec (k_farmer b) x) as [->|]; [auto|discriminate].
    - intros (A & B & C). repeat split; auto. exists (k_farmer b). split; auto. destruct (addr_eqb_spec (k_farmer b) (k_farmer b)); congruence.
  Qed.
  Lemma range_eq k since : last_range ((k, since), 0) ((k, top), 0) (w_table s) = map row_of (filter (farmed_by [k] since) c).
  Proof.
    destruct HO as (SO & M). apply (ss_unique (fun x y => klt key_cmp (fst y) (fst x))).
    - intros x y A B. apply (klt_asym KT A B).
    - now apply last_range_desc.
    - apply (ss_map (fun x y => k_height_ y < k_height_ x)).
      + intros x y X Y LT. apply filter_In in X as (_ & X). apply filter_In in Y as (_ & Y). apply farmed_iff in X as (_ & [X|[]] & _). apply farmed_iff in Y as (_ & [Y|[]] & _). cbn [row_of fst]. rewrite klt_spec. right. split; [congruence|auto].
      + apply ss_filter. now apply down_sorted.
    - intros r. rewrite last_range_in by auto. rewrite M, !in_map_iff. split.
      + intros ((b & <- & B) & L1 & L2). exists b. split; auto. apply filter_In in B as (B & F). apply filter_In. split; auto. apply farmed_iff. cbn [row_of fst] in *.
        unfold is_farmed in F. apply negb_true_iff, N.eqb_neq in F. split; auto. rewrite klt_spec in L1.
        destruct L2 as [L2|L2]; [injection L2 as -> ->; split; [now left|lia]|]. rewrite klt_spec in L2. destruct L1 as [L1|(EK & _)].
        * destruct L2 as [L2|(EK & L2)]; [exfalso; apply (klt_asym bytescmp_total L1 L2)|]. rewrite EK, (cmp_refl bytescmp_total) in L1. discriminate.
        * split; [now left|]. destruct L2 as [L2|(_ & L2)]; [rewrite EK, (cmp_refl bytescmp_total) in L2; discriminate|lia].
      + intros (b & <- & B). apply filter_In in B as (B & F). apply farmed_iff in F as (NZ & [->|[]] & LE). split; [|split].
        * exists b. split; auto. apply filter_In. split; auto. unfold is_farmed. now rewrite (proj2 (N.eqb_neq _ _) NZ).
        * cbn [row_of fst]. rewrite klt_spec. right. split; auto. left. apply down_lt in B; auto. unfold top. lia.
        * cbn [row_of fst]. destruct (N.eq_dec since (k_height_ b)) as [->|]; [now left|]. right. rewrite klt_spec. right. split; auto. left. lia.
  Qed.
  Lemma first_eq k since : Permutation (first_range ((k, since), 0) ((k, top), 0) (w_table s)) (map row_of (filter (farmed_by [k] since) c)).
  Proof.
    rewrite <- range_eq. destruct HO as (SO & _). rewrite last_range_filter by auto. unfold first_range.
    assert (Q : forall l : table, asorted key_cmp l -> take_while (fun r => key_ltb (fst r) ((k, top), 0)) l = filter (fun r => key_ltb (fst r) ((k, top), 0)) l).
    { induction l as [|(x, v) l IH]; intros A; auto. cbn [take_while filter fst]. destruct (asorted_cons_inv A) as (A' & LT). destruct (key_ltb x (k, top, 0)) eqn:E; [now rewrite IH|].
      symmetry. rewrite (filter_ext_in' _ (fun _ => false)); [clear; now induction l|]. intros (y, w) Y. cbn [fst]. apply key_ltb_false. right. apply key_ltb_false in E. specialize (LT _ _ Y). destruct E as [->|E]; auto. eapply (klt_trans KT); eauto. }
    rewrite Q by now apply asorted_filter. rewrite filter_filter. etransitivity; [apply filter_perm, Permutation_rev|]. erewrite filter_ext; [reflexivity|]. intros r. apply andb_comm.
  Qed.

  (** ** Blocks *)
  Lemma put_perm x l : Permutation (put x l) (x :: l).
  Proof. induction l as [|y l IH]; cbn [put]; auto. destruct (n_height y <=? n_height x); auto. etransitivity; [apply perm_skip, IH|apply perm_swap]. Qed.
  Lemma sort_perm l : Permutation (fold_right put [] l) l.
  Proof. induction l as [|x l IH]; cbn [fold_right]; auto. etransitivity; [apply put_perm|auto]. Qed.
  Lemma put_sorted x l : StronglySorted (fun a b => n_height b <= n_height a) l -> StronglySorted (fun a b => n_height b <= n_height a) (put x l).
  Proof.
    induction 1 as [|y l S IH F]; cbn [put]; [constructor; [constructor|constructor]|]. destruct (N.leb_spec (n_height y) (n_height x)).
    - constructor; [constructor; auto|]. constructor; auto. rewrite Forall_forall in *. intros z Z. specialize (F _ Z). lia.
    - constructor; auto. rewrite Forall_forall in *. intros z Z. apply (Permutation_in _ (put_perm x l)) in Z. destruct Z as [<-|Z]; [lia|auto].
  Qed.
  Lemma sort_weak l : StronglySorted (fun a b => n_height b <= n_height a) (fold_right put [] l).
  Proof. induction l as [|x l IH]; cbn [fold_right]; [constructor|now apply put_sorted]. Qed.
  Lemma strict l : StronglySorted (fun a b => n_height b <= n_height a) l -> NoDup l -> (forall x y, In x l -> In y l -> n_height x = n_height y -> x = y) -> StronglySorted (fun a b => n_height b < n_height a) l.
  Proof.
    induction 1 as [|x l S IH F]; intros ND INJ; constructor; inversion_clear ND as [|? ? NI ND'].
    - apply IH; auto. intros a b A B. apply INJ; now right.
    - rewrite Forall_forall in *. intros y Y. specialize (F _ Y). destruct (N.eq_dec (n_height y) (n_height x)) as [E|]; [|lia]. destruct NI. rewrite (INJ x y); auto; [now left|now right].
  Qed.
  Lemma cut_eq (n : nat) : forall L M : list info, StronglySorted (fun a b => n_height b < n_height a) L -> StronglySorted (fun a b => n_height b < n_height a) M ->
    (forall x, In x M -> In x L) -> (forall x, In x (firstn n L) -> In x M) -> firstn n M = firstn n L.
  Proof.
    induction n as [|n IH]; intros L M SL SM SUB TOP; auto. destruct L as [|x L].
    - destruct M as [|y M]; auto. destruct (SUB y (or_introl eq_refl)).
    - cbn [firstn] in TOP. inversion_clear SL as [|? ? SL' FL]. rewrite Forall_forall in FL. destruct M as [|y M]; [destruct (TOP x (or_introl eq_refl))|].
      inversion_clear SM as [|? ? SM' FM]. rewrite Forall_forall in FM.
      assert (y = x) as ->.
      { destruct (TOP x (or_introl eq_refl)) as [E|I]; auto. destruct (SUB y (or_introl eq_refl)) as [E|J]; auto. apply FM in I. apply FL in J. lia. }
      cbn [firstn]. f_equal. apply IH; auto.
      + intros z Z. destruct (SUB z (or_intror Z)) as [<-|I]; auto. apply FM in Z. lia.
      + intros z Z. destruct (TOP z (or_intror Z)) as [<-|I]; auto. assert (In x L) by (rewrite <- (firstn_skipn n L); apply in_app_iff; auto). apply FL in H. lia.
  Qed.
  Lemma nodup_two {A} (l l' : list A) : NoDup l -> NoDup l' -> (forall x, In x l -> In x l' -> False) -> NoDup (l ++ l').
  Proof.
    induction l as [|x l IH]; cbn [app]; auto. intros ND ND' DJ. inversion_clear ND as [|? ? NI ND2]. constructor.
    - intros I. apply in_app_iff in I as [I|I]; auto. apply (DJ x); auto. now left.
    - apply IH; auto. intros y Y. apply DJ. now right.
  Qed.
  Lemma nodup_firstn {A} n (l : list A) : NoDup l -> NoDup (firstn n l).
  Proof. revert n. induction l as [|x l IH]; intros [|n] ND; cbn [firstn]; try constructor; inversion_clear ND as [|? ? NI ND2]; auto. intros I. apply NI. rewrite <- (firstn_skipn n l). apply in_app_iff. auto. Qed.
  Lemma in_firstn {A} n (l : list A) x : In x (firstn n l) -> In x l.
  Proof. intros I. rewrite <- (firstn_skipn n l). apply in_app_iff. auto. Qed.
  Lemma in_firstn_more {A} n m (l : list A) x : (n <= m)%nat -> In x (firstn n l) -> In x (firstn m l).
  Proof. intros LE I. rewrite <- (Nat.min_l n m LE), <- firstn_firstn in I. eapply in_firstn; eauto. Qed.
  Lemma firstn_filter {A} (p : A -> bool) x l : forall n, In x (firstn n l) -> p x = true -> In x (firstn n (filter p l)).
  Proof.
    induction l as [|y l IH]; intros [|n] I P; try now destruct I. cbn [firstn filter] in *. destruct I as [->|I].
    - rewrite P. now left.
    - specialize (IH n I P). destruct (p y); [right; auto|]. exact (in_firstn_more n (S n) _ _ (Nat.le_succ_diag_r n) IH).
  Qed.

  Variable farmers : list addr.
  Hypothesis ONCE : NoDup farmers.
  Definition mine (since : N) : list blk := filter (farmed_by farmers since) c.
  Lemma info_inj x y : In x c -> In y c -> info_of x = info_of y -> x = y.
  Proof. intros X Y E. apply (down_inj c); auto. now injection E. Qed.
  Lemma nodup_chain : NoDup c.
  Proof. apply (ss_nodup (fun x y => k_height_ y < k_height_ x)); [intros; lia|now apply down_sorted]. Qed.
  Lemma nodup_map_in {A B} (f : A -> B) l : NoDup l -> (forall x y, In x l -> In y l -> f x = f y -> x = y) -> NoDup (map f l).
  Proof.
    induction 1 as [|x l NI ND IH]; intros INJ; cbn [map]; constructor.
    - intros I. apply in_map_iff in I as (y & E & Y). apply NI. rewrite (INJ x y); auto; [now left|now right].
    - apply IH. intros a b A1 B1. apply INJ; now right.
  Qed.
  Lemma collected_nodup since n : forall fs, NoDup fs -> NoDup (flat_map (fun k => firstn n (filter (farmed_by [k] since) c)) fs).
  Proof.
    induction fs as [|k fs IH]; cbn [flat_map]; intros ND; [constructor|]. inversion_clear ND as [|? ? NI ND']. apply nodup_two; auto.
    - apply nodup_firstn, NoDup_filter, nodup_chain.
    - intros x X Y. apply in_firstn, filter_In in X as (_ & X). apply farmed_iff in X as (_ & [->|[]] & _). apply in_flat_map in Y as (k & K & Y). apply in_firstn, filter_In in Y as (_ & Y). apply farmed_iff in Y as (_ & [->|[]] & _). auto.
  Qed.
  Lemma one_of k since x : In k farmers -> filter (farmed_by [k] since) c = filter (fun b => addr_eqb (k_farmer b) k) (mine since) /\ (In x (filter (farmed_by [k] since) c) -> In x (mine since)).
  Proof.
    intros K. assert (E : filter (farmed_by [k] since) c = filter (fun b => addr_eqb (k_farmer b) k) (mine since)).
    { unfold mine. rewrite filter_filter. apply filter_ext. intros b. apply eq_true_iff_eq. rewrite andb_true_iff, !farmed_iff. destruct (addr_eqb_spec (k_farmer b) k) as [E|N]; [rewrite E|]; cbn [In]; intuition congruence. }
    split; auto. rewrite E, filter_In. tauto.
  Qed.
  Lemma blocks_at l : (forall x, In x l -> In x c) -> map (fun e => block_at s (n_height e)) (map info_of l) = map Some l.
  Proof.
    intros SUB. rewrite map_map. apply map_ext_in. intros b B. apply SUB in B. cbn [info_of n_height]. unfold block_at. rewrite CH. clear -B DN.
    induction c as [|x c' IH]; [destruct B|]. cbn [find]. cbn [counts_down] in DN. destruct DN as (E & D). destruct B as [->|B].
    - now rewrite N.eqb_refl.
    - destruct (N.eqb_spec (k_height_ x) (k_height_ b)) as [Q|]; auto. apply down_lt in B; auto. lia.
  Qed.
  Lemma blocks_ok since limit : (- 2 ^ 31 <= limit < 2 ^ 31)%Z ->
    get_farmed_blocks s farmers since limit = map Some (if (0 <=? limit)%Z then firstn (Z.to_nat limit) (mine since) else rev (mine since)).
  Proof.
    intros LO. unfold get_farmed_blocks. set (n := N.to_nat (size limit)).
    set (E := flat_map (fun k => firstn n (filter (farmed_by [k] since) c)) farmers).
    assert (EQ : flat_map (fun k => map snd (take (size limit) (last_range (k, since, 0) (k, top, 0) (w_table s)))) farmers = map info_of E).
    { unfold E. clear -HO DN FEW. induction farmers as [|k fs IH]; auto. cbn [flat_map]. rewrite IH, map_app. f_equal. rewrite range_eq, take_firstn, firstn_map, map_map. reflexivity. }
    rewrite EQ. set (M := fold_right put [] (map info_of E)).
    assert (SUBC : forall x, In x E -> In x c).
    { intros x X. apply in_flat_map in X as (k & K & X). apply in_firstn, filter_In in X. tauto. }
    assert (SUB : forall x, In x E -> In x (mine since)).
    { intros x X. apply in_flat_map in X as (k & K & X). apply in_firstn in X. now apply (one_of k since x K). }
    assert (SM : StronglySorted (fun a b => n_height b < n_height a) M).
    { apply strict; [apply sort_weak| |].
      - apply (Permutation_NoDup (Permutation_sym (sort_perm _))). apply nodup_map_in; [now apply collected_nodup|]. intros x y X Y. apply info_inj; auto.
      - intros x y X Y Q. apply (Permutation_in _ (sort_perm _)) in X. apply (Permutation_in _ (sort_perm _)) in Y. apply in_map_iff in X as (a & <- & A). apply in_map_iff in Y as (b & <- & B). f_equal. apply (down_inj c); auto. }
    assert (SL : StronglySorted (fun a b => n_height b < n_height a) (map info_of (mine since))).
    { apply (ss_map (fun x y => k_height_ y < k_height_ x)); [auto|]. apply ss_filter. now apply down_sorted. }
    assert (CUT : firstn n M = firstn n (map info_of (mine since))).
    { apply cut_eq; auto.
      - intros x X. apply (Permutation_in _ (sort_perm _)) in X. apply in_map_iff in X as (a & <- & A). apply in_map. auto.
      - intros x X. rewrite firstn_map in X. apply in_map_iff in X as (b & <- & B). apply (Permutation_in _ (Permutation_sym (sort_perm _))). apply in_map.
        assert (K : In (k_farmer b) farmers) by (apply in_firstn, filter_In in B as (_ & F); now apply farmed_iff in F). apply in_flat_map. exists (k_farmer b). split; auto.
        rewrite (proj1 (one_of _ since b K)). apply firstn_filter; auto. destruct (addr_eqb_spec (k_farmer b) (k_farmer b)); congruence. }
    assert (SUBM : forall m x, In x (firstn m (mine since)) -> In x c) by (intros m x X; apply in_firstn, filter_In in X; tauto).
    destruct (Z.leb_spec 0 limit) as [P|NG].
    - assert (SZ : size limit = Z.to_N limit) by (unfold size; rewrite Z.mod_small by lia; reflexivity). rewrite take_firstn, <- SZ. fold n. rewrite CUT, firstn_map, blocks_at by apply SUBM. f_equal. f_equal. unfold n. rewrite SZ. lia.
    - assert (SZ : size limit = 2 ^ 64 - Z.to_N (- limit)).
      { unfold size. rewrite <- (Z.mod_add _ 1) by lia. rewrite Z.mod_small by lia. change (2 ^ 64)%Z with 18446744073709551616%Z. change (2 ^ 64) with 18446744073709551616. lia. }
      assert (BIG : forall m, (m <= N.to_nat (2 ^ 32))%nat -> (m <= n)%nat).
      { intros m LE. unfold n. rewrite SZ. assert (Z.to_N (- limit) <= 2 ^ 31) by lia. change (2 ^ 64) with 18446744073709551616. change (2 ^ 31) with 2147483648 in H. change (2 ^ 32) with 4294967296 in LE. lia. }
      assert (LL : (List.length (mine since) <= N.to_nat (2 ^ 32))%nat) by (unfold mine; pose proof (filter_length_le (farmed_by farmers since) c); lia).
      rewrite !firstn_all2 in CUT; [|rewrite map_length; auto|].
      + rewrite CUT, <- map_rev, blocks_at; auto. intros x X. apply in_rev, filter_In in X. tauto.
      + apply BIG. unfold M. rewrite (Permutation_length (sort_perm _)), map_length. etransitivity; [|exact LL]. apply NoDup_incl_length; [now apply collected_nodup|exact SUB].
  Qed.

  (** ** Summary *)
  Definition isum (l : list info) : N := fold_right (fun e n => n_reward e + n) 0 l.
  Lemma isum_cons x l : isum (x :: l) = n_reward x + isum l. Proof. reflexivity. Qed.
  Lemma isum_perm l l' : Permutation l l' -> isum l = isum l'.
  Proof. induction 1; rewrite ?isum_cons; lia || congruence. Qed.
  Lemma isum_app l l' : isum (l ++ l') = isum l + isum l'.
  Proof. induction l as [|x l IH]; [reflexivity|]. cbn [app]. rewrite !isum_cons. lia. Qed.
  Lemma isum_filter (p : info -> bool) l : isum (filter p l) <= isum l.
  Proof. induction l as [|x l IH]; [reflexivity|]. cbn [filter]. destruct (p x); rewrite ?isum_cons; lia. Qed.
  Record of_infos (l : list info) (m : summary) : Prop := mk_of {
    oi_number : m_blocks m = N.of_nat (List.length l); oi_last : forall e, In e l -> n_height e <= m_last m; oi_last_is : l <> [] -> exists e, In e l /\ n_height e = m_last m; oi_zero : l = [] -> m_last m = 0;
    oi_total : m_total m = isum l; oi_sorted : asorted bytescmp (m_map m);
    oi_map : forall a x, In (a, x) (m_map m) <-> (exists e, In e l /\ n_addr e = a) /\ x = isum (filter (fun e => addr_eqb (n_addr e) a) l) }.
  Lemma summary_fold l : N.of_nat (List.length l) < 2 ^ 32 -> isum l < 2 ^ 64 -> of_infos l (fold_left add_info l (mk_summary 0 0 0 [])).
  Proof.
    induction l as [|e l IH] using rev_ind; intros FW SM.
    - constructor; cbn [fold_left m_blocks m_last m_total m_map List.length In]; try reflexivity; try tauto; [constructor|]. intros a x. split; [tauto|]. intros ((e & [] & _) & _).
    - rewrite app_length in FW. cbn [List.length] in FW. rewrite isum_app, isum_cons in SM. destruct IH as [A B B' Z C D G]; [lia|lia|]. rewrite fold_left_app. cbn [fold_left].
      set (m := fold_left add_info l (mk_summary 0 0 0 [])) in *. unfold add_info.
      assert (OLD : match aget bytescmp (n_addr e) (m_map m) with Some x => x | None => 0 end = isum (filter (fun x => addr_eqb (n_addr x) (n_addr e)) l)).
      { destruct (aget bytescmp (n_addr e) (m_map m)) as [x|] eqn:Q.
        - apply (aget_In bytescmp_total) in Q; auto. now apply G in Q.
        - pose proof (proj1 (aget_None bytescmp_total _ D) Q) as NO. rewrite (filter_ext_in' _ (fun _ => false)); [clear; induction l; auto|]. intros x X. destruct (addr_eqb_spec (n_addr x) (n_addr e)) as [E|]; auto.
          exfalso. eapply NO. apply G. split; [|reflexivity]. eauto. }
      constructor; cbn [m_blocks m_last m_total m_map].
      + rewrite A, N.mod_small, app_length by lia. cbn [List.length]. lia.
      + intros x X. apply in_app_iff in X as [X|[<-|[]]]; [apply B in X; lia|lia].
      + intros _. destruct (N.max_spec (n_height e) (m_last m)) as [(LT & ->)|(LE & ->)].
        * destruct l as [|e0 l0]; [rewrite Z in LT by auto; lia|]. destruct (B' ltac:(discriminate)) as (x & X & Q). exists x. split; auto. apply in_app_iff. auto.
        * exists e. split; auto. apply in_app_iff. right. now left.
      + intros Q. destruct l; discriminate.
      + rewrite C, N.mod_small by lia. rewrite isum_app, isum_cons. cbn. lia.
      + now apply (aset_sorted bytescmp_total).
      + assert (SB : isum (filter (fun x => addr_eqb (n_addr x) (n_addr e)) l) <= isum l) by apply isum_filter.
        intros a x. rewrite (aset_In bytescmp_total) by auto. rewrite filter_app, isum_app. cbn [filter]. rewrite OLD, N.mod_small by lia. rewrite G. split.
        * intros [(-> & ->)|(NE & (y & Y & Q) & ->)].
          -- split; [exists e; split; auto; apply in_app_iff; right; now left|]. destruct (addr_eqb_spec (n_addr e) (n_addr e)); [|congruence]. cbn [isum fold_right]. lia.
          -- split; [exists y; split; auto; apply in_app_iff; auto|]. destruct (addr_eqb_spec (n_addr e) a) as [EA|]; [congruence|]. cbn [isum fold_right]. lia.
        * intros ((y & Y & Q) & ->). destruct (addr_eqb_spec (n_addr e) a) as [<-|NE]; cbn [isum fold_right].
          -- left. split; auto. lia.
          -- right. split; [congruence|]. split; [|lia]. apply in_app_iff in Y as [Y|[<-|[]]]; [eauto|congruence].
  Qed.
  Lemma summary_ok since : (forall b, In b (mine since) -> k_reward b < 2 ^ 32) -> total (mine since) < 2 ^ 64 -> summarizes (mine since) (get_farmed_block_summary s farmers since).
  Proof.
    intros RW TT. unfold get_farmed_block_summary. set (E := flat_map (fun k => map snd (first_range (k, since, 0) (k, top, 0) (w_table s))) farmers).
    assert (P1 : Permutation E (map info_of (flat_map (fun k => filter (farmed_by [k] since) c) farmers))).
    { unfold E. clear -HO DN FEW. induction farmers as [|k fs IH]; auto. cbn [flat_map]. rewrite map_app. apply Permutation_app; auto. etransitivity; [apply Permutation_map, first_eq|]. rewrite map_map. reflexivity. }
    assert (P2 : Permutation (flat_map (fun k => filter (farmed_by [k] since) c) farmers) (mine since)).
    { apply NoDup_Permutation.
      - pose proof (collected_nodup since (List.length c) farmers ONCE) as Q. erewrite flat_map_ext; [exact Q|]. intros k. cbn beta. rewrite firstn_all2; auto. apply filter_length_le.
      - apply NoDup_filter, nodup_chain.
      - intros x. rewrite in_flat_map. split.
        + intros (k & K & X). now apply (one_of k since x K).
        + intros X. assert (K : In (k_farmer x) farmers) by (apply filter_In in X as (_ & F); now apply farmed_iff in F). exists (k_farmer x). split; auto. rewrite (proj1 (one_of _ since x K)). apply filter_In. split; auto. destruct (addr_eqb_spec (k_farmer x) (k_farmer x)); congruence. }
    assert (P : Permutation E (map info_of (mine since))) by (etransitivity; [exact P1|now apply Permutation_map]).
    assert (SUM : forall l, (forall b, In b l -> k_reward b < 2 ^ 32) -> isum (map info_of l) = total l).
    { induction l as [|b l IH]; intros R; auto. cbn [map]. rewrite isum_cons. cbn [total fold_right]. fold (total l). rewrite IH by (intros; apply R; now right). cbn [info_of n_reward]. rewrite N.mod_small; auto. apply R. now left. }
    assert (LE : (List.length (mine since) <= List.length c)%nat) by apply filter_length_le.
    destruct (summary_fold E) as [A B B' Z C D G].
    - rewrite (Permutation_length P), map_length. lia.
    - rewrite (isum_perm _ _ P), SUM; auto.
    - constructor.
      + rewrite A, (Permutation_length P), map_length. reflexivity.
      + intros b I. apply (B (info_of b)). apply (Permutation_in _ (Permutation_sym P)). now apply in_map.
      + intros NE. destruct B' as (e & I & Q).
        { intros Q. rewrite Q in P. apply Permutation_nil in P. destruct (mine since); [now apply NE|discriminate]. }
        apply (Permutation_in _ P), in_map_iff in I as (b & <- & I). eauto.
      + rewrite C, (isum_perm _ _ P). auto.
      + apply (ss_nodup (klt bytescmp)); [intros x; apply (klt_irrefl bytescmp_total)|exact D].
      + intros a x. rewrite G. assert (Q : isum (filter (fun e => addr_eqb (n_addr e) a) E) = total (filter (fun b => addr_eqb (paid_to b) a) (mine since))).
        { rewrite (isum_perm _ _ (filter_perm _ _ _ P)), filter_map', SUM; [reflexivity|]. intros b I. apply filter_In in I. now apply RW. }
        rewrite Q. split; intros ((e & I & J) & K); (split; [|exact K]).
        * apply (Permutation_in _ P), in_map_iff in I as (b & <- & I). exists b. auto.
        * exists (info_of e). split; auto. apply (Permutation_in _ (Permutation_sym P)). now apply in_map.
  Qed.
End QUERY.
