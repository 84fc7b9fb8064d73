(** Facts on shifts, masks and disjoint bitwise or. *)
Require Import NArith Lia.
Open Scope N_scope.

Lemma land_mask : forall x n, N.land x (2 ^ n - 1) = x mod 2 ^ n.
Proof. intros. rewrite <- N.land_ones. f_equal. rewrite N.ones_equiv. lia. Qed.

Lemma land_7 : forall x, N.land x 7 = x mod 8. Proof. intros. apply (land_mask x 3). Qed.
Lemma land_1 : forall x, N.land x 1 = x mod 2. Proof. intros. apply (land_mask x 1). Qed.
Lemma land_31 : forall x, N.land x 31 = x mod 32. Proof. intros. apply (land_mask x 5). Qed.
Lemma land_255 : forall x, N.land x 255 = x mod 256. Proof. intros. apply (land_mask x 8). Qed.
Lemma land_2047 : forall x, N.land x 2047 = x mod 2048. Proof. intros. apply (land_mask x 11). Qed.

Lemma pow2_nz : forall n, 2 ^ n <> 0. Proof. intros. now apply N.pow_nonzero. Qed.

Lemma testbit_high : forall x n i, x < 2 ^ n -> n <= i -> N.testbit x i = false.
Proof.
  intros x n i H L. rewrite N.testbit_eqb. apply N.eqb_neq. rewrite N.div_small; [discriminate|].
  eapply N.lt_le_trans; [exact H|]. apply N.pow_le_mono_r; [discriminate|exact L].
Qed.

Lemma lor_shiftl_add : forall a b n, b < 2 ^ n -> N.lor (N.shiftl a n) b = a * 2 ^ n + b.
Proof.
  intros a b n H. apply N.bits_inj. intros i. rewrite N.lor_spec.
  rewrite N.add_comm. destruct (N.lt_ge_cases i n) as [L|L].
  - rewrite N.shiftl_spec_low by auto. simpl.
    rewrite <- (N.mod_pow2_bits_low (b + a * 2 ^ n) n i L), N.mod_add by apply pow2_nz.
    now rewrite N.mod_pow2_bits_low.
  - rewrite N.shiftl_spec_high' by auto. rewrite (testbit_high b n i H L), Bool.orb_false_r.
    replace i with ((i - n) + n) at 2 by lia.
    rewrite <- N.div_pow2_bits, N.div_add by apply pow2_nz. rewrite N.div_small by auto. reflexivity.
Qed.

Lemma lor_small_add : forall a b n, b < 2 ^ n -> a mod 2 ^ n = 0 -> N.lor a b = a + b.
Proof.
  intros a b n Hb Ha. assert (E : a = N.shiftl (a / 2 ^ n) n).
  { rewrite N.shiftl_mul_pow2. pose proof (N.div_mod a (2 ^ n) (pow2_nz n)). lia. }
  rewrite E at 1. rewrite lor_shiftl_add by auto. f_equal. now rewrite E at 2; rewrite N.shiftl_mul_pow2.
Qed.

Lemma lxor_lt_pow2 : forall a b n, a < 2 ^ n -> b < 2 ^ n -> N.lxor a b < 2 ^ n.
Proof.
  intros a b n Ha Hb. destruct (N.eq_dec (N.lxor a b) 0) as [E|E]; [rewrite E; apply N.neq_0_lt_0, pow2_nz|].
  apply N.log2_lt_pow2; [lia|].
  eapply N.le_lt_trans; [apply N.log2_lxor|]. 
  assert (K : forall x, x < 2 ^ n -> x <> 0 -> N.log2 x < n) by (intros; apply N.log2_lt_pow2; lia).
  destruct (N.eq_dec a 0) as [A|A], (N.eq_dec b 0) as [B|B]; subst; simpl in *; try congruence.
  - rewrite N.max_r by lia. auto.
  - rewrite N.max_l by lia. auto.
  - apply N.max_lub_lt; auto.
Qed.
