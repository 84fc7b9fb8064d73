(** Proofs about contracts that sell tokens: the horse race *)
Require Import List Arith NArith ZArith QArith Bool Lia Lqa.
From Verif Require Import BytesLib EngineModel EngineUpper CtrModel CtrSpec CtrProofs SaleModel SaleSpec SaleProofs.
Import List ListNotations.
Open Scope N_scope.

(** ** Newton's method in integers *)
Definition newton (x y : N) : N := (y * y + x) / (2 * y).
Fixpoint newtons (n : nat) (x y : N) : N := match n with O => y | S n => if 0 <? y then newtons n x (newton x y) else y end.
Lemma newton_bounds x y : 0 < y -> 2 * y * newton x y <= y * y + x < 2 * y * (newton x y + 1).
Proof.
  intros Y. unfold newton. pose proof (N.div_mod (y * y + x) (2 * y) ltac:(lia)) as D. pose proof (N.mod_lt (y * y + x) (2 * y) ltac:(lia)) as M.
  set (q := (y * y + x) / (2 * y)) in *. set (r := (y * y + x) mod (2 * y)) in *. clearbody q r. rewrite N.mul_add_distr_l. lia.
Qed.
Lemma newton_above x y : 0 < y -> x < (newton x y + 1) * (newton x y + 1).
Proof.
  intros Y. destruct (newton_bounds x y Y) as (_ & B). set (s := newton x y + 1) in *. clearbody s. 
  assert (BZ : (Z.of_N y * Z.of_N y + Z.of_N x < 2 * Z.of_N y * Z.of_N s)%Z) by lia. assert (SQ : (0 <= (Z.of_N s - Z.of_N y) * (Z.of_N s - Z.of_N y))%Z) by apply Z.square_nonneg.
  assert (Z.of_N x < Z.of_N s * Z.of_N s)%Z by lia. lia.
Qed.
Lemma div_cross a b c d : 0 < b -> 0 < d -> a * d <= c * b -> a / b <= c / d.
Proof.
  intros B D L. apply N.div_le_lower_bound; [lia|]. pose proof (N.mul_div_le a b ltac:(lia)) as E. set (q := a / b) in *. clearbody q.
  apply (N.mul_le_mono_pos_r _ _ b); auto. transitivity (a * d); auto. replace (d * q * b) with (b * q * d) by ring. now apply N.mul_le_mono_r.
Qed.
Lemma newton_order x x' y y' : x < x' -> 0 < y -> y <= y' -> x < (y + 1) * (y + 1) -> newton x y <= newton x' y'.
Proof.
  intros X Y L I. destruct (N.le_gt_cases x' (y * y)) as [G|G].
  - unfold newton. apply div_cross; [lia|lia|]. assert (YY : exists k, y' = y + k) by (exists (y' - y); lia). destruct YY as (k & ->). assert (XX : exists j, x' = x + j) by (exists (x' - x); lia). destruct XX as (j & ->).
    assert (E : x * k <= y * y * k) by (apply N.mul_le_mono_r; lia). nia.
  - destruct (N.le_gt_cases (newton x y) (newton x' y')) as [|C]; auto. exfalso. pose proof (newton_above x' y' ltac:(lia)) as A. destruct (newton_bounds x y Y) as (B & _).
    set (s := newton x y) in *. set (s' := newton x' y') in *. clearbody s s'. assert (S1 : x' < s * s) by (eapply N.lt_le_trans; [exact A|]; apply N.mul_le_mono; lia).
    assert (SY : y < s). { destruct (N.le_gt_cases s y) as [Z|]; auto. assert (s * s <= y * y) by (apply N.mul_le_mono; auto). lia. }
    assert (T : exists k, s = y + 1 + k) by (exists (s - y - 1); lia). destruct T as (k & ->). nia.
Qed.
Lemma newton_zero y : newton 0 y <= y.
Proof. destruct (N.eq_dec y 0) as [->|]; [reflexivity|]. unfold newton. apply N.div_le_upper_bound; nia. Qed.
Lemma newtons_order n : forall x x' y y', x < x' -> y <= y' -> x < (y + 1) * (y + 1) -> x' < (y' + 1) * (y' + 1) -> newtons n x y <= newtons n x' y'.
Proof.
  induction n as [|n IH]; intros x x' y y' X Y I I'; cbn [newtons]; auto. destruct (N.ltb_spec 0 y') as [P'|]; [|destruct (N.ltb_spec 0 y); lia].
  destruct (N.ltb_spec 0 y) as [P|P]; [|lia]. apply IH; auto using newton_above. now apply newton_order.
Qed.
Lemma newtons_mono n x x' : x <= x' -> newtons n x x <= newtons n x' x'.
Proof. intros L. destruct (N.eq_dec x x') as [->|]; [lia|]. apply newtons_order; nia. Qed.
Lemma newton_le x y : 0 < y <= x -> newton x y <= x.
Proof. intros (A & B). unfold newton. apply N.div_le_upper_bound; [lia|]. nia. Qed.
Lemma newtons_le n x : forall y, y <= x -> newtons n x y <= x.
Proof. induction n as [|n IH]; intros y L; cbn [newtons]; auto. destruct (N.ltb_spec 0 y); auto. apply IH. now apply newton_le. Qed.

Lemma some_pair {A B} (a c : A) (b d : B) : Some (a, b) = Some (c, d) -> a = c /\ b = d.
Proof. now intros [= -> ->]. Qed.

Module Horse.
  Import HorseRace.
  Lemma iterate_ok x y e c : 0 < y <= x -> x < 2 ^ 190 -> iterate x y e c = Some (newton x y, c).
  Proof.
    intros (Y & L) B. unfold iterate, ushl, ushr, udiv, bind, ret.
    assert (BX : x * 2 ^ 64 < 2 ^ 254) by (change (2 ^ 254) with (2 ^ 190 * 2 ^ 64); apply N.mul_lt_mono_pos_r; auto; reflexivity).
    assert (BY : y * 2 ^ 64 < 2 ^ 254) by (eapply N.le_lt_trans; [|exact BX]; now apply N.mul_le_mono_r).
    rewrite (N.mod_small (y * 2 ^ 64)) by (eapply N.lt_trans; [exact BY|reflexivity]). rewrite (N.mod_small (x * 2 ^ 64)) by (eapply N.lt_trans; [exact BX|reflexivity]).
    destruct (N.eqb_spec y 0); [lia|]. assert (DX : x * 2 ^ 64 / y <= x * 2 ^ 64) by (apply N.div_le_upper_bound; nia).
    rewrite uadd_ok. 2:{ apply N.lt_le_trans with (2 ^ 254 + 2 ^ 254); [|discriminate]. apply N.add_lt_mono; auto. eapply N.le_lt_trans; [exact DX|exact BX]. }
    f_equal. f_equal. change (2 ^ 65) with (2 * 2 ^ 64). assert (QP : 0 < 2 ^ 64) by reflexivity. clear B BX BY DX. revert QP. generalize (2 ^ 64). intros Q QP. unfold newton.
    rewrite <- N.div_add_l by lia. rewrite N.div_div by lia. replace (y * Q * y + x * Q) with ((y * y + x) * Q) by ring. replace (y * (2 * Q)) with (2 * y * Q) by ring.
    apply N.div_mul_cancel_r; lia.
  Qed.
  Lemma iterations_ok n x e c : x < 2 ^ 190 -> forall y, y <= x -> iterations n x y e c = Some (newtons n x y, c).
  Proof.
    intros B. induction n as [|n IH]; intros y L; cbn [iterations newtons]; auto. destruct (N.ltb_spec 0 y); auto. unfold bind. rewrite iterate_ok by auto. apply IH. now apply newton_le.
  Qed.
  (** the price that belongs to a pot *)
  Definition price (P x : N) : N := newtons 20 (x / P) (x / P) * P.
  Lemma price_mono P x y : 0 < P -> x <= y -> price P x <= price P y.
  Proof. intros PP L. unfold price. apply N.mul_le_mono_r, newtons_mono, N.div_le_mono; lia. Qed.
  Lemma price_le P x : 0 < P -> price P x <= x.
  Proof. intros PP. unfold price. transitivity (x / P * P); [apply N.mul_le_mono_r, newtons_le; lia|]. rewrite N.mul_comm. apply N.mul_div_le. lia. Qed.
  Lemma calc_price_inv x e c p c' : x < 2 ^ 190 -> 0 < precision (c_vars c) -> calc_price x e c = Some (p, c') -> p = price (precision (c_vars c)) x /\ c' = c.
  Proof.
    intros B PP H. unfold calc_price in H. apply bind_inv in H as (v & c1 & H1 & H). apply get_inv in H1 as (-> & ->). apply bind_inv in H as (q & c1 & H1 & H). apply udiv_inv in H1 as (_ & -> & ->).
    assert (LQ : x / precision (c_vars c) <= x) by (apply N.div_le_upper_bound; nia). apply bind_inv in H as (z & c1 & H1 & H). rewrite (iterations_ok 20 _ e c (N.le_lt_trans _ _ _ LQ B) _ (N.le_refl _)) in H1. apply some_pair in H1 as (Z1 & Z2). rewrite <- Z1, <- Z2 in H.
    apply umul_inv in H as (-> & ->); [auto|]. change (price (precision (c_vars c)) x < 2 ^ 256). eapply N.le_lt_trans; [apply price_le; auto|]. eapply N.lt_trans; [exact B|reflexivity].
  Qed.

  Lemma calc_price_ok x e c : x < 2 ^ 190 -> 0 < precision (c_vars c) -> calc_price x e c = Some (price (precision (c_vars c)) x, c).
  Proof.
    intros B PP. unfold calc_price, bind, get, udiv. destruct (N.eqb_spec (precision (c_vars c)) 0); [lia|]. assert (LQ : x / precision (c_vars c) <= x) by (apply N.div_le_upper_bound; nia).
    rewrite (iterations_ok 20 _ e c (N.le_lt_trans _ _ _ LQ B) _ (N.le_refl _)). rewrite umul_ok; [reflexivity|]. change (price (precision (c_vars c)) x < 2 ^ 256).
    eapply N.le_lt_trans; [apply price_le; auto|]. eapply N.lt_trans; [exact B|reflexivity].
  Qed.

  (** *** wallets *)
  Lemma same_key_spec u i e : same_key u i e = true <-> fst e = (u, i).
  Proof.
    unfold same_key. destruct e as ((a, j), x). cbn [fst snd]. rewrite andb_true_iff, N.eqb_eq. split; [intros (A & ->); apply addr_eqb_eq in A; now subst|]. intros [= -> ->]. split; auto. apply addr_eqb_refl.
  Qed.
  Definition keyed (w : list (addr * N * N)) : Prop := NoDup (map fst w) /\ Forall (fun e => snd e < 2 ^ 256) w.
  Lemma tokens_absent w u i : ~ In (u, i) (map fst w) -> tokens w u i = 0 /\ filter (fun e => negb (same_key u i e)) w = w.
  Proof.
    intros N. unfold tokens. induction w as [|e w IH]; auto. cbn [find filter]. destruct (same_key u i e) eqn:E; cbn [negb].
    - apply same_key_spec in E. destruct N. left. auto.
    - destruct IH as (A & B); [intros I; apply N; now right|]. split; auto. now rewrite B.
  Qed.
  Lemma supply_without w u i : NoDup (map fst w) -> supply i (filter (fun e => negb (same_key u i e)) w) + tokens w u i = supply i w.
  Proof.
    induction w as [|e w IH]; auto. intros ND. inversion ND as [|? ? NI ND']. subst. unfold tokens. cbn [find filter supply fold_right]. destruct (same_key u i e) eqn:E; cbn [negb].
    - apply same_key_spec in E. rewrite E in NI. destruct (tokens_absent w u i NI) as (_ & ->). rewrite E. cbn [snd]. rewrite N.eqb_refl. unfold supply. lia.
    - cbn [fold_right]. specialize (IH ND'). unfold tokens, supply in *. lia.
  Qed.
  Lemma supply_other w u i j : j <> i -> supply j (filter (fun e => negb (same_key u i e)) w) = supply j w.
  Proof.
    intros NE. induction w as [|e w IH]; auto. cbn [filter]. destruct (same_key u i e) eqn:E; cbn [negb supply fold_right].
    - apply same_key_spec in E. rewrite E. cbn [snd]. destruct (N.eqb_spec i j); [congruence|]. exact IH.
    - unfold supply in *. now rewrite IH.
  Qed.
  Lemma supply_put w u i x : keyed w -> supply i (put w u i x) + tokens w u i = supply i w + x.
  Proof. intros (ND & _). unfold put. cbn [supply fold_right fst snd]. rewrite N.eqb_refl. pose proof (supply_without w u i ND). unfold supply in *. lia. Qed.
  Lemma supply_put_other w u i x j : j <> i -> supply j (put w u i x) = supply j w.
  Proof. intros NE. unfold put. cbn [supply fold_right fst snd]. destruct (N.eqb_spec i j); [congruence|]. rewrite N.add_0_l. now apply supply_other. Qed.
  Lemma keyed_put w u i x : keyed w -> x < 2 ^ 256 -> keyed (put w u i x).
  Proof.
    intros (ND & B) X. unfold put. split; cbn [map fst].
    - constructor.
      + intros I. apply in_map_iff in I as (e & E & I). apply filter_In in I as (_ & I). apply same_key_spec in E. rewrite E in I. discriminate.
      + clear B X. induction w as [|e w IH]; cbn [filter map]; [constructor|]. inversion ND as [|? ? NI ND']. subst. destruct (same_key u i e); cbn [negb]; auto. cbn [map]. constructor; auto.
        intros I. apply NI. apply in_map_iff in I as (f & F & I). apply filter_In in I as (I & _). rewrite <- F. now apply in_map.
    - constructor; auto. apply Forall_forall. intros e I. apply filter_In in I as (I & _). rewrite Forall_forall in B. auto.
  Qed.
  Lemma tokens_small w u i : keyed w -> tokens w u i < 2 ^ 256.
  Proof. intros (_ & B). unfold tokens. destruct (find _ w) as [e|] eqn:F; [|reflexivity]. apply find_some in F as (I & _). rewrite Forall_forall in B. auto. Qed.

  (** *** pots *)
  Lemma replace_length l : forall i x, length (replace l i x) = length l.
  Proof. induction l as [|y l IH]; intros [|i] x; cbn [replace length]; auto. Qed.
  Lemma replace_nth l : forall i x, (i < length l)%nat -> nth i (replace l i x) 0 = x.
  Proof. induction l as [|y l IH]; intros [|i] x L; cbn [replace nth length] in *; try lia; auto. apply IH. lia. Qed.
  Lemma replace_other l : forall i j x, i <> j -> nth j (replace l i x) 0 = nth j l 0.
  Proof. induction l as [|y l IH]; intros [|i] [|j] x L; cbn [replace nth]; auto; try congruence. Qed.
  Lemma replace_sum l : forall i x, (i < length l)%nat -> fold_right N.add 0 (replace l i x) + nth i l 0 = fold_right N.add 0 l + x.
  Proof. induction l as [|y l IH]; intros [|i] x L; cbn [replace nth length fold_right] in *; try lia. specialize (IH i x ltac:(lia)). lia. Qed.
  Lemma nth_le_sum l : forall i, nth i l 0 <= fold_right N.add 0 l.
  Proof. induction l as [|y l IH]; intros [|i]; cbn [nth fold_right]; try lia. specialize (IH i). lia. Qed.
  Lemma sum_mono l : forall k, length l = length k -> (forall i, nth i l 0 <= nth i k 0) -> fold_right N.add 0 l <= fold_right N.add 0 k.
  Proof.
    induction l as [|y l IH]; intros [|z k] L A; cbn [length fold_right] in *; try lia. pose proof (A O) as A0. cbn [nth] in A0. specialize (IH k ltac:(lia) (fun i => A (S i))). lia.
  Qed.
  Lemma pot_set v v' i x : balances v' = replace (balances v) (N.to_nat i) x -> i < N.of_nat (length (balances v)) -> pot v' i = x.
  Proof. intros E L. unfold pot. rewrite E. apply replace_nth. lia. Qed.
  Lemma pot_keep v v' i j x : balances v' = replace (balances v) (N.to_nat i) x -> j <> i -> pot v' j = pot v j.
  Proof. intros E L. unfold pot. rewrite E. apply replace_other. lia. Qed.
  Lemma balance_of_inv i e c b c' : balance_of i e c = Some (b, c') -> b = pot (c_vars c) i /\ i < N.of_nat (length (balances (c_vars c))) /\ c' = c.
  Proof.
    unfold balance_of, pot. intros H. apply bind_inv in H as (v & c1 & H1 & H). apply get_inv in H1 as (-> & ->). destruct (nth_error _ _) as [x|] eqn:E; [|discriminate]. apply ret_inv in H as (-> & ->).
    split; [symmetry; now apply nth_error_nth|]. split; auto. assert (N.to_nat i < length (balances (c_vars c)))%nat by (apply nth_error_Some; congruence). lia.
  Qed.
  Lemma the_user_inv e c u c' : the_user e c = Some (u, c') -> e_user e = Some u /\ c' = c.
  Proof. unfold the_user. intros H. apply bind_inv in H as (v & c1 & H1 & H). apply user_inv in H1 as (-> & ->). destruct (e_user e); [|discriminate]. apply ret_inv in H as (-> & ->). auto. Qed.

  Definition with_wallets (v : vars) w : vars := mk (currency v) (precision v) (token_scale v) (activation_height v) w (balances v).
  Definition with_balances (v : vars) b : vars := mk (currency v) (precision v) (token_scale v) (activation_height v) (wallets v) b.
  Lemma put_tokens_inv u i x e c r c' : put_tokens u i x e c = Some (r, c') -> c' = mk_ctr (with_wallets (c_vars c) (put (wallets (c_vars c)) u i x)) (c_bal c) (c_sent c) (c_minted c).
  Proof. unfold put_tokens. intros H. apply bind_inv in H as (v & c1 & H1 & H). apply get_inv in H1 as (-> & ->). now apply set_inv in H. Qed.
  Lemma put_balance_inv i x e c r c' : put_balance i x e c = Some (r, c') -> c' = mk_ctr (with_balances (c_vars c) (replace (balances (c_vars c)) (N.to_nat i) x)) (c_bal c) (c_sent c) (c_minted c).
  Proof. unfold put_balance. intros H. apply bind_inv in H as (v & c1 & H1 & H). apply get_inv in H1 as (-> & ->). now apply set_inv in H. Qed.

  (** *** the potential: how many tokens a pot can have been worth *)
  Section PSI.
    Variables P sc : N.
    Hypothesis PP : 0 < P.
    Hypothesis SC : 0 < sc.
    Definition pp (x : N) : positive := Z.to_pos (Z.of_N (N.max 1 (price P x))).
    Definition q (x : N) : Q := Z.of_N sc # pp x.
    Fixpoint psi (n : nat) : Q := match n with O => 0%Q | S n => (psi n + q (N.of_nat (S n)))%Q end.
    Lemma pp_Z x : Z.pos (pp x) = Z.of_N (N.max 1 (price P x)).
    Proof. unfold pp. rewrite Z2Pos.id; auto. lia. Qed.
    Lemma q_pos x : (0 < q x)%Q.
    Proof. unfold q, Qlt. cbn. lia. Qed.
    Lemma q_anti x y : x <= y -> (q y <= q x)%Q.
    Proof. intros L. unfold q, Qle. cbn [Qnum Qden]. rewrite !pp_Z. apply Z.mul_le_mono_nonneg_l; [lia|]. pose proof (price_mono P x y PP L). lia. Qed.
    Lemma psi_up k : forall b top, N.of_nat (b + k) <= top -> (inject_Z (Z.of_nat k) * q top <= psi (b + k) - psi b)%Q.
    Proof.
      induction k as [|k IH]; intros b top L. { rewrite Nat.add_0_r. cbn [Z.of_nat]. change (inject_Z 0) with 0%Q. lra. }
      rewrite Nat.add_succ_r. cbn [psi]. specialize (IH b top ltac:(lia)). pose proof (q_anti (N.of_nat (S (b + k))) top ltac:(lia)) as A.
      rewrite Nat2Z.inj_succ. unfold Z.succ. rewrite inject_Z_plus. change (inject_Z 1) with 1%Q. lra.
    Qed.
    Lemma psi_down k : forall b r, (forall x, N.of_nat b < x -> (q x <= r)%Q) -> (psi (b + k) - psi b <= inject_Z (Z.of_nat k) * r)%Q.
    Proof.
      induction k as [|k IH]; intros b r L. { rewrite Nat.add_0_r. cbn [Z.of_nat]. change (inject_Z 0) with 0%Q. lra. }
      rewrite Nat.add_succ_r. cbn [psi]. specialize (IH b r L). pose proof (L (N.of_nat (S (b + k))) ltac:(lia)) as A.
      rewrite Nat2Z.inj_succ. unfold Z.succ. rewrite inject_Z_plus. change (inject_Z 1) with 1%Q. lra.
    Qed.
    Lemma psi_strict a k : (psi a < psi (a + S k))%Q.
    Proof. induction k as [|k IH]; [rewrite Nat.add_1_r|rewrite Nat.add_succ_r]; cbn [psi]; [pose proof (q_pos (N.of_nat (S a)))|pose proof (q_pos (N.of_nat (S (a + S k))))]; lra. Qed.
    Lemma psi_le a b : (psi (N.to_nat a) <= psi (N.to_nat b))%Q -> a <= b.
    Proof.
      intros L. destruct (N.le_gt_cases a b) as [|G]; auto. exfalso. pose proof (psi_strict (N.to_nat b) (N.to_nat a - N.to_nat b - 1)) as A.
      replace (N.to_nat b + S (N.to_nat a - N.to_nat b - 1))%nat with (N.to_nat a) in A by lia. lra.
    Qed.
    Definition QN (n : N) : Q := inject_Z (Z.of_N n).
    Lemma buy_psi b d t : t * price P (b + d) <= d * sc -> price P (b + d) <> 0 -> (QN t <= psi (N.to_nat (b + d)) - psi (N.to_nat b))%Q.
    Proof.
      intros L NZ. rewrite N2Nat.inj_add. eapply Qle_trans; [|apply psi_up with (top := b + d); lia]. unfold QN, q, Qle, inject_Z, Qmult. cbn [Qnum Qden]. rewrite N_nat_Z, Z.mul_1_r.
      replace (Z.pos (1 * pp (b + d))) with (Z.of_N (price P (b + d))) by (rewrite Pos.mul_1_l, pp_Z; lia). lia.
    Qed.
    Lemma sell_psi b x t y : x * sc <= t * price P y -> x <= b -> y <= b - x -> (psi (N.to_nat b) - psi (N.to_nat (b - x)) <= QN t)%Q.
    Proof.
      intros L XB Y. destruct (N.eq_dec x 0) as [->|NX]. { rewrite N.sub_0_r. unfold QN. assert (0 <= inject_Z (Z.of_N t))%Q by (unfold Qle, inject_Z; cbn; lia). lra. }
      assert (PZ : price P y <> 0) by (intros E; rewrite E in L; nia).
      replace (N.to_nat b) with (N.to_nat (b - x) + N.to_nat x)%nat by lia. eapply Qle_trans; [apply psi_down with (r := q y); intros z Z; apply q_anti; lia|].
      unfold QN, q, Qle, inject_Z, Qmult. cbn [Qnum Qden]. rewrite N_nat_Z, Z.mul_1_r. rewrite Pos.mul_1_l, pp_Z. replace (N.max 1 (price P y)) with (price P y) by lia. lia.
    Qed.
  End PSI.

  (** *** calls *)
  Section CALLS.
    Variables (P sc : N) (cur : addr) (n : nat).
    Hypothesis PP : 0 < P.
    Hypothesis SC : 0 < sc.
    Definition fine (v : vars) : Prop := currency v = cur /\ precision v = P /\ token_scale v = sc /\ length (balances v) = n /\ keyed (wallets v).
    Definition gain (v v' : vars) : Prop := forall i, (QN (supply i (wallets v')) - QN (supply i (wallets v)) <= psi P sc (N.to_nat (pot v' i)) - psi P sc (N.to_nat (pot v i)))%Q.
    Lemma QN_add a b : (QN (a + b) == QN a + QN b)%Q.
    Proof. unfold QN. rewrite N2Z.inj_add, inject_Z_plus. reflexivity. Qed.
    Lemma gain_refl v : gain v v.
    Proof. intros i. lra. Qed.
    Lemma gain_trans u v w : gain u v -> gain v w -> gain u w.
    Proof. intros A B i. specialize (A i). specialize (B i). lra. Qed.
    Lemma call_horse v bal e m c : 1 <= e_version e -> fine v -> pots v <= bal cur -> c_bal (begin e v bal) cur < 2 ^ 128 -> exec m e (begin e v bal) = Some (tt, c) ->
      fine (c_vars c) /\ pots (c_vars c) <= c_bal c cur /\ c_bal c cur <= c_bal (begin e v bal) cur /\
      pots (c_vars c) + total_paid cur (rev (c_sent c)) = pots v + bets [(Call e m, [], [])] /\ gain v (c_vars c).
    Proof.
      intros V (FC & FP & FS & FL & FK) PB BB H. unfold exec in H. apply bind_inv in H as (v' & c' & H0 & H). apply get_inv in H0 as (-> & ->). cbn [begin c_vars] in H.
      assert (B0 : bal cur <= c_bal (begin e v bal) cur). { cbn [begin c_bal]. destruct (e_deposit e) as [(x, k)|]; [|lia]. unfold credit. destruct (addr_eqb cur x); lia. }
      assert (VS : c_vars (begin e v bal) = v) by reflexivity. assert (CS : c_sent (begin e v bal) = []) by reflexivity.
      assert (DC : forall k, e_deposit e = Some (cur, k) -> c_bal (begin e v bal) cur = bal cur + k) by (intros k E; cbn [begin c_bal]; rewrite E; unfold credit; now rewrite addr_eqb_refl).
      set (c0 := begin e v bal) in *. clearbody c0. assert (POT : forall i, pot v i <= pots v) by (intros; apply nth_le_sum). destruct m as [i|i amount|target amount i].
      - (* Buy *) apply bind_inv in H as (r1 & c1 & H1 & H). apply assert_inv in H1 as (I & ->). apply N.ltb_lt in I. apply bind_inv in H as (h & c1 & H1 & H). apply height_inv in H1 as (-> & ->).
        apply bind_inv in H as (r2 & c1 & H1 & H). apply assert_inv in H1 as (_ & ->). apply bind_inv in H as ((dc, d) & c1 & H1 & H). apply deposit_inv in H1 as (DE & ->). cbn [fst snd] in H.
        apply bind_inv in H as (r3 & c1 & H1 & H). apply assert_inv in H1 as (E & ->). apply addr_eqb_eq in E. subst dc. rewrite FC in DE. specialize (DC d DE).
        assert (S1 : pot v i + d < 2 ^ 190). { apply N.lt_trans with (2 ^ 128); [|reflexivity]. specialize (POT i). lia. }
        assert (LL : forall x, x < 2 ^ 190 -> x < 2 ^ 256) by (intros z Z; eapply N.lt_trans; [exact Z|reflexivity]).
        apply bind_inv in H as (price0 & c1 & H1 & H). unfold get_buy_price in H1. apply bind_inv in H1 as (b & c2 & H2 & H1). apply balance_of_inv in H2 as (-> & _ & ->). rewrite VS in H1.
        apply bind_inv in H1 as (x & c2 & H2 & H1). apply uadd_inv in H2 as (-> & _ & ->); [|apply LL; lia|apply LL; lia]. apply calc_price_inv in H1 as (-> & ->); auto; [|rewrite VS, FP; auto]. rewrite VS, FP in H.
        apply bind_inv in H as (x & c1 & H1 & H). pose proof (umul_le _ _ _ _ _ _ H1) as (_ & XB & _). apply umul_exact in H1 as (-> & ->); auto. rewrite FS in *.
        apply bind_inv in H as (amount & c1 & H1 & H). apply udiv_inv in H1 as (PNZ & AM & ->). assert (AB : amount * price P (pot v i + d) <= d * sc) by (rewrite AM, N.mul_comm; apply N.mul_div_le; auto).
        assert (AS : amount < 2 ^ 256). { eapply N.le_lt_trans; [|exact XB]. etransitivity; [|exact AB]. rewrite <- (N.mul_1_r amount) at 1. apply N.mul_le_mono_l. lia. }
        apply bind_inv in H as (u & c1 & H1 & H). apply the_user_inv in H1 as (_ & ->). apply bind_inv in H as (t & c1 & H1 & H). apply uadd_inv in H1 as (-> & TB & ->); auto using tokens_small.
        apply bind_inv in H as (r4 & c1 & H1 & H). apply put_tokens_inv in H1. subst c1. rewrite VS in H. apply bind_inv in H as (b & c1 & H1 & H). apply balance_of_inv in H1 as (-> & _ & ->).
        cbn [c_vars] in H. change (pot (with_wallets v _) i) with (pot v i) in H. apply bind_inv in H as (b & c1 & H1 & H). apply uadd_inv in H1 as (-> & _ & ->); [|apply LL; lia|apply LL; lia].
        apply put_balance_inv in H. subst c. cbn [c_vars c_bal c_sent with_wallets with_balances currency precision token_scale activation_height wallets balances]. rewrite CS.
        assert (IL : (N.to_nat i < length (balances v))%nat) by lia. pose proof (replace_sum (balances v) (N.to_nat i) (pot v i + d) IL) as RS. change (nth (N.to_nat i) (balances v) 0) with (pot v i) in RS.
        split; [|split; [|split; [|split]]].
        + unfold fine. cbn [with_wallets with_balances currency precision token_scale wallets balances]. rewrite replace_length. auto 10 using keyed_put.
        + unfold pots in *. cbn [with_wallets with_balances balances]. lia.
        + lia.
        + cbn [rev total_paid fold_right bets ev_of fst]. rewrite DE. unfold pots. cbn [with_wallets with_balances balances]. lia.
        + intros j. cbn [with_wallets with_balances wallets]. destruct (N.eq_dec j i) as [->|NE].
          * rewrite (pot_set v _ i (pot v i + d)) by (auto; lia). pose proof (supply_put (wallets v) u i (tokens (wallets v) u i + amount) FK) as SP.
            assert (EQ : supply i (put (wallets v) u i (tokens (wallets v) u i + amount)) = supply i (wallets v) + amount) by lia. rewrite EQ, QN_add.
            pose proof (buy_psi P sc PP SC (pot v i) d amount AB PNZ). lra.
          * rewrite (pot_keep v _ i j (pot v i + d)) by auto. rewrite supply_put_other by auto. lra.
      - (* Sell *) apply bind_inv in H as (r1 & c1 & H1 & H). apply assert_inv in H1 as (_ & ->). apply bind_inv in H as (r2 & c1 & H1 & H). apply assert_inv in H1 as (I & ->). apply N.ltb_lt in I.
        apply bind_inv in H as (u & c1 & H1 & H). apply the_user_inv in H1 as (_ & ->). apply bind_inv in H as (r3 & c1 & H1 & H). apply assert_inv in H1 as (TA & ->). apply N.leb_le in TA.
        pose proof (tokens_small (wallets v) u i FK) as TS. assert (S1 : pot v i < 2 ^ 128) by (specialize (POT i); lia).
        assert (S2 : pot v i < 2 ^ 190) by (eapply N.lt_trans; [exact S1|reflexivity]). assert (S3 : pot v i < 2 ^ 256) by (eapply N.lt_trans; [exact S1|reflexivity]).
        apply bind_inv in H as (price0 & c1 & H1 & H). unfold get_sell_price in H1. apply bind_inv in H1 as (b & c2 & H2 & H1). apply balance_of_inv in H2 as (-> & _ & ->). rewrite VS in H1.
        apply bind_inv in H1 as (p & c2 & H2 & H1). unfold get_price in H2. apply bind_inv in H2 as (b & c3 & H3 & H2). apply balance_of_inv in H3 as (-> & _ & ->). rewrite VS in H2.
        apply calc_price_inv in H2 as (-> & ->); auto; [|rewrite VS, FP; auto]. rewrite VS, FP in H1. apply bind_inv in H1 as (v2 & c2 & H2 & H1). apply get_inv in H2 as (-> & ->). rewrite VS, FS in H1.
        apply bind_inv in H1 as (x & c2 & H2 & H1). pose proof (umul_le _ _ _ _ _ _ H2) as (_ & XB & _). apply umul_exact in H2 as (-> & ->); auto. apply bind_inv in H1 as (y & c2 & H2 & H1). apply udiv_inv in H2 as (_ & YE & ->).
        assert (YS : y < 2 ^ 256). { eapply N.le_lt_trans; [|exact XB]. subst y. apply N.div_le_upper_bound; [lia|]. rewrite <- (N.mul_1_l (amount * _)) at 1. apply N.mul_le_mono_r. lia. }
        apply bind_inv in H1 as (z & c2 & H2 & H1). apply usub_inv in H2 as (YL & -> & ->); auto. apply calc_price_inv in H1 as (-> & ->); [|eapply N.le_lt_trans; [apply N.le_sub_l|exact S2]|rewrite VS, FP; auto]. rewrite VS, FP in H.
        set (p' := price P (pot v i - y)) in *. assert (PL : p' <= price P (pot v i)) by (apply price_mono; auto; lia).
        apply bind_inv in H as (w & c1 & H1 & H). apply umul_exact in H1 as (-> & ->); auto. rewrite FS in H. apply bind_inv in H as (x & c1 & H1 & H). apply udiv_inv in H1 as (_ & XE & ->).
        assert (XY : x <= y). { subst x y. apply N.div_le_mono; [lia|]. now apply N.mul_le_mono_l. } assert (XA : x * sc <= amount * p') by (subst x; rewrite N.mul_comm; apply N.mul_div_le; lia).
        apply bind_inv in H as (t & c1 & H1 & H). apply usub_inv in H1 as (_ & -> & ->); auto; [|eapply N.le_lt_trans; [exact TA|exact TS]].
        apply bind_inv in H as (r4 & c1 & H1 & H). apply put_tokens_inv in H1. subst c1. rewrite VS in H. apply bind_inv in H as (b & c1 & H1 & H). apply balance_of_inv in H1 as (-> & _ & ->).
        cbn [c_vars] in H. change (pot (with_wallets v _) i) with (pot v i) in H. apply bind_inv in H as (b & c1 & H1 & H). apply usub_inv in H1 as (_ & -> & ->); auto; [|eapply N.le_lt_trans; [exact XY|exact YS]].
        apply bind_inv in H as (r5 & c1 & H1 & H). apply put_balance_inv in H1. subst c1.
        cbn [c_vars c_bal c_sent c_minted with_wallets with_balances currency precision token_scale activation_height wallets balances] in H. rewrite FC, CS in H.
        assert (IL : (N.to_nat i < length (balances v))%nat) by lia. pose proof (replace_sum (balances v) (N.to_nat i) (pot v i - x) IL) as RS. change (nth (N.to_nat i) (balances v) 0) with (pot v i) in RS.
        assert (KP : keyed (put (wallets v) u i (tokens (wallets v) u i - amount))) by (apply keyed_put; auto; eapply N.le_lt_trans; [apply N.le_sub_l|exact TS]).
        assert (GG : forall v2, wallets v2 = put (wallets v) u i (tokens (wallets v) u i - amount) -> balances v2 = replace (balances v) (N.to_nat i) (pot v i - x) -> gain v v2).
        { intros v2 W2 B2 j. rewrite W2. destruct (N.eq_dec j i) as [->|NE].
          - rewrite (pot_set v v2 i (pot v i - x)) by (auto; lia). pose proof (supply_put (wallets v) u i (tokens (wallets v) u i - amount) FK) as SP.
            assert (EQ : supply i (wallets v) = supply i (put (wallets v) u i (tokens (wallets v) u i - amount)) + amount) by lia.
            assert (EQ2 : (QN (supply i (wallets v)) == QN (supply i (put (wallets v) u i (tokens (wallets v) u i - amount))) + QN amount)%Q) by (rewrite EQ at 1; apply QN_add).
            pose proof (sell_psi P sc PP SC (pot v i) x amount (pot v i - y) XA ltac:(lia) ltac:(lia)). lra.
          - rewrite (pot_keep v v2 i j (pot v i - x)) by auto. rewrite supply_put_other by auto. lra. }
        apply send_inv in H as [(-> & ->)|(A1 & A2 & ->)]; cbn [c_vars c_bal c_sent].
        + split; [|split; [|split; [|split]]].
          * unfold fine. cbn [with_wallets with_balances currency precision token_scale wallets balances]. rewrite replace_length. auto 10.
          * unfold pots in *. cbn [with_wallets with_balances balances]. lia.
          * lia.
          * cbn [rev total_paid fold_right bets ev_of fst]. unfold pots. cbn [with_wallets with_balances balances]. lia.
          * now apply GG.
        + split; [|split; [|split; [|split]]].
          * unfold fine. cbn [with_wallets with_balances currency precision token_scale wallets balances]. rewrite replace_length. auto 10.
          * rewrite addr_eqb_refl. unfold pots in *. cbn [with_wallets with_balances balances]. specialize (POT i). lia.
          * rewrite addr_eqb_refl. lia.
          * cbn [rev app total_paid fold_right bets ev_of fst pm_currency pm_amount]. rewrite addr_eqb_refl. unfold pots. cbn [with_wallets with_balances balances]. lia.
          * now apply GG.
      - (* Transfer *) apply bind_inv in H as (r1 & c1 & H1 & H). apply assert_inv in H1 as (_ & ->). apply bind_inv in H as (r2 & c1 & H1 & H). apply assert_inv in H1 as (I & ->). apply N.ltb_lt in I.
        apply bind_inv in H as (u & c1 & H1 & H). apply the_user_inv in H1 as (_ & ->). apply bind_inv in H as (r3 & c1 & H1 & H). apply assert_inv in H1 as (TA & ->). apply N.leb_le in TA.
        pose proof (tokens_small (wallets v) u i FK) as TS. assert (AS : amount < 2 ^ 256) by (eapply N.le_lt_trans; [exact TA|exact TS]).
        apply bind_inv in H as (t & c1 & H1 & H). apply usub_inv in H1 as (_ & -> & ->); auto. apply bind_inv in H as (r4 & c1 & H1 & H). apply put_tokens_inv in H1. subst c1. rewrite VS in H.
        apply bind_inv in H as (v2 & c1 & H1 & H). apply get_inv in H1 as (-> & ->). cbn [c_vars with_wallets wallets] in H.
        assert (KP : keyed (put (wallets v) u i (tokens (wallets v) u i - amount))) by (apply keyed_put; auto; eapply N.le_lt_trans; [apply N.le_sub_l|exact TS]).
        pose proof (supply_put (wallets v) u i (tokens (wallets v) u i - amount) FK) as SP1.
        assert (SO1 : forall j, j <> i -> supply j (put (wallets v) u i (tokens (wallets v) u i - amount)) = supply j (wallets v)) by (intros j NE; now apply supply_put_other).
        set (w1 := put (wallets v) u i (tokens (wallets v) u i - amount)) in *. clearbody w1.
        apply bind_inv in H as (t & c1 & H1 & H). apply uadd_inv in H1 as (-> & TB & ->); auto using tokens_small. apply put_tokens_inv in H. subst c.
        cbn [c_vars c_bal c_sent c_minted with_wallets with_balances currency precision token_scale activation_height wallets balances]. rewrite CS. split; [|split; [|split; [|split]]].
        + unfold fine. cbn [with_wallets with_balances currency precision token_scale wallets balances]. auto 10 using keyed_put.
        + unfold pots in *. cbn [with_wallets with_balances balances]. lia.
        + lia.
        + cbn [rev total_paid fold_right bets ev_of fst]. unfold pots. cbn [with_wallets with_balances balances]. lia.
        + intros j. cbn [with_wallets with_balances wallets]. replace (pot _ j) with (pot v j) by reflexivity. destruct (N.eq_dec j i) as [->|NE].
          * pose proof (supply_put w1 target i (tokens w1 target i + amount) KP) as SP2. replace (supply i (put w1 target i (tokens w1 target i + amount))) with (supply i (wallets v)) by lia. lra.
          * rewrite supply_put_other, SO1 by auto. lra.
    Qed.
    Lemma history_horse x h l y k : history exec x h l y k -> current l -> fine (fst x) -> pots (fst x) <= snd x cur -> snd x cur + inflow cur l < 2 ^ 128 ->
      fine (fst y) /\ pots (fst y) <= snd y cur /\ pots (fst y) + paid_out cur l = pots (fst x) + bets l /\ gain (fst x) (fst y) /\ snd y cur <= snd x cur + inflow cur l.
    Proof.
      induction 1 as [|x h ev p m y l z h' k HP _ _ _ IH]; intros CU F PB B.
      - split; auto. split; auto. split; [cbn; lia|]. split; [apply gain_refl|cbn; lia].
      - assert (CU' : current l) by (intros a e mm I; apply CU; now right). cbn [inflow fold_right ev_of fst] in B. fold (inflow cur l) in B.
        inversion HP as [s bal e mm c EX|s bal cu am]; subst; cbn [fst snd] in *.
        + assert (BE : c_bal (begin e s bal) cur = bal cur + came_in cur (Call e mm)).
          { cbn [begin c_bal came_in]. destruct (e_deposit e) as [(q0, w0)|]; [|lia]. unfold credit. destruct (addr_eqb cur q0); lia. }
          assert (VV : 1 <= e_version e) by (eapply CU; [left; reflexivity|reflexivity]).
          destruct (call_horse s bal e mm c VV F PB ltac:(rewrite BE; lia) EX) as (F1 & P1 & B1 & E1 & G1). destruct IH as (F2 & P2 & E2 & G2 & IN); auto; [rewrite BE in B1; lia|].
          split; auto. split; auto. split; [|split; [eapply gain_trans; eauto|unfold inflow in *; cbn [fold_right ev_of fst]; lia]]. unfold paid_out, bets in *. cbn [fold_right ev_of paid_by fst snd] in *. lia.
        + assert (CR : credit bal cu am cur = bal cur + came_in cur (@Receive method cu am)) by (unfold credit; cbn [came_in]; destruct (addr_eqb cur cu); lia).
          rewrite CR in IH. destruct IH as (F2 & P2 & E2 & G2 & IN); auto; try lia.
          split; auto. split; auto. split; [exact E2|]. split; auto. unfold inflow in *. cbn [fold_right ev_of fst]. lia.
    Qed.
    Lemma gain_pot v v' i : gain v v' -> supply i (wallets v) <= supply i (wallets v') -> pot v i <= pot v' i.
    Proof.
      intros G L. specialize (G i). apply (psi_le P sc PP SC). assert (QN (supply i (wallets v)) <= QN (supply i (wallets v')))%Q by (unfold QN; rewrite <- Zle_Qle; lia). lra.
    Qed.
    Lemma gain_pots v v' : fine v -> fine v' -> gain v v' -> (forall i, supply i (wallets v) <= supply i (wallets v')) -> pots v <= pots v'.
    Proof.
      intros (_ & _ & _ & L & _) (_ & _ & _ & L' & _) G A. unfold pots. apply sum_mono; [congruence|]. intros i. pose proof (gain_pot v v' (N.of_nat i) G (A _)) as B. unfold pot in B. now rewrite Nat2N.id in B.
    Qed.
  End CALLS.
  Lemma init_fine k cur pr de ac v : init k cur pr de ac = Some v -> fine (10 ^ pr) (10 ^ de) cur k v /\ pots v = 0 /\ 0 < 10 ^ pr /\ 0 < 10 ^ de.
  Proof.
    unfold init. destruct (_ && _); [|discriminate]. intros [= <-]. split; [|split; [|split; apply N.neq_0_lt_0, N.pow_nonzero; discriminate]].
    - unfold fine. cbn [currency precision token_scale wallets balances]. rewrite repeat_length. repeat split; constructor.
    - unfold pots. cbn [balances]. induction k as [|k IH]; cbn [repeat fold_right]; auto.
  Qed.
  Lemma inflow_app {M} cur (a b : list (entry M)) : inflow cur (a ++ b) = inflow cur a + inflow cur b.
  Proof. unfold inflow. induction a as [|x a IH]; cbn [app fold_right]; [reflexivity|]. rewrite IH. lia. Qed.
End Horse.
