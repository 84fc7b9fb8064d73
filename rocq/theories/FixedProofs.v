Require Import List Arith NArith ZArith Lia Bool.
From Verif Require Import BytesLib BitsLib CodecModel.
Import ListNotations.
Open Scope N_scope.

Definition dval (s : list N) : N := fold_left (fun a c => a * 10 + (c - 48)) s 0.
Definition digits (s : list N) : Prop := Forall (fun c => is_digit c = true) s.

Lemma dval_snoc : forall s c, dval (s ++ [c]) = dval s * 10 + (c - 48).
Proof. intros. unfold dval. now rewrite fold_left_app. Qed.
Lemma is_digit_spec : forall c, is_digit c = true <-> 48 <= c <= 57.
Proof. intros. unfold is_digit. rewrite andb_true_iff, !N.leb_le. lia. Qed.

Lemma dec_aux_spec : forall f x, x < 10 ^ N.of_nat f -> f <> O ->
  dval (dec_aux f x) = x /\ digits (dec_aux f x) /\ dec_aux f x <> [] /\
  (forall n, x < 10 ^ N.of_nat (S n) -> (length (dec_aux f x) <= S n)%nat).
Proof.
  induction f as [|f IH]; intros x H Hf; [congruence|]. cbn [dec_aux]. destruct (N.ltb_spec x 10) as [L|L].
  - split; [unfold dval; cbn [fold_left]; lia|]. split; [constructor; [apply is_digit_spec; lia|constructor]|].
    split; [discriminate|]. intros n _. simpl. lia.
  - rewrite Nat2N.inj_succ, N.pow_succ_r' in H.
    assert (Hq : x / 10 < 10 ^ N.of_nat f) by (apply N.div_lt_upper_bound; [discriminate|exact H]).
    assert (f <> O). { intros ->. simpl in H. lia. }
    destruct (IH _ Hq H0) as (E & D & Ne & Len).
    pose proof (N.mod_lt x 10 ltac:(discriminate)) as Hm.
    split. { rewrite dval_snoc, E. pose proof (N.div_mod x 10 ltac:(discriminate)) as DM. 
      set (q := x / 10) in *. set (r := x mod 10) in *. clearbody q r. lia. }
    split. { apply Forall_app. split; [exact D|]. constructor; [|constructor]. apply is_digit_spec.
      set (r := x mod 10) in *. clearbody r. lia. }
    split. { destruct (dec_aux f (x / 10)); discriminate. }
    intros n Hn. rewrite app_length. cbn [length]. destruct n as [|n]; [simpl in Hn; lia|].
    assert (x / 10 < 10 ^ N.of_nat (S n)).
    { apply N.div_lt_upper_bound; [discriminate|]. now rewrite Nat2N.inj_succ, N.pow_succ_r' in Hn. }
    specialize (Len n H1). lia.
Qed.

Lemma dec_spec : forall x, dval (dec x) = x /\ digits (dec x) /\ dec x <> [] /\
  (forall n, x < 10 ^ N.of_nat (S n) -> (length (dec x) <= S n)%nat).
Proof.
  intros x. apply dec_aux_spec; [|discriminate].
  apply N.lt_le_trans with (2 ^ N.size x); [apply N.size_gt|].
  rewrite Nat2N.inj_succ, N2Nat.id. transitivity (10 ^ N.size x).
  - apply N.pow_le_mono_l. lia.
  - apply N.pow_le_mono_r; lia.
Qed.

Lemma parse_dec_val : forall s, digits s -> parse_dec s = Some (dval s mod 2 ^ 128).
Proof.
  intros s D. unfold parse_dec. replace (forallb is_digit s) with true.
  2:{ symmetry. apply forallb_forall. unfold digits in D. now rewrite Forall_forall in D. }
  f_equal. clear D. induction s as [|c s IH] using rev_ind; [reflexivity|].
  rewrite fold_left_app, IH, dval_snoc. cbn [fold_left]. unfold w128.
  rewrite <- (N.add_mod_idemp_l _ _ (2 ^ 128)) by discriminate. rewrite N.mul_mod_idemp_l by discriminate.
  rewrite N.add_mod_idemp_l by discriminate. reflexivity.
Qed.

Lemma dval_zeros : forall s k, dval (s ++ repeat 48 k) = dval s * 10 ^ N.of_nat k.
Proof.
  intros s k. induction k as [|k IH]; [simpl; rewrite app_nil_r; lia|].
  replace (repeat 48 (S k)) with (repeat 48 k ++ [48]) by (symmetry; apply repeat_cons).
  rewrite app_assoc, dval_snoc, IH, Nat2N.inj_succ, N.pow_succ_r'. lia.
Qed.
Lemma dval_lead : forall s k, dval (repeat 48 k ++ s) = dval s.
Proof. intros s k. induction k; [reflexivity|]. unfold dval in *. exact IHk. Qed.

Lemma strip_spec : forall s, exists k, s = strip_zeros s ++ repeat 48 k.
Proof.
  induction s as [|c s [k IH]]; [exists O; reflexivity|]. cbn [strip_zeros].
  destruct (strip_zeros s) as [|d r].
  - destruct (N.eqb_spec c 48) as [->|].
    + exists (S k). simpl in *. now rewrite IH at 1.
    + exists k. simpl in *. now rewrite IH at 1.
  - exists k. rewrite IH at 1. reflexivity.
Qed.

Lemma iter_mul10 : forall n x, x * 10 ^ N.of_nat n < 2 ^ 128 -> iter_n n (fun x => w128 (x * 10)) x = x * 10 ^ N.of_nat n.
Proof.
  induction n as [|n IH]; intros x H; [simpl; lia|]. rewrite Nat2N.inj_succ, N.pow_succ_r' in *. cbn [iter_n].
  assert (1 <= 10 ^ N.of_nat n) by (assert (10 ^ N.of_nat n <> 0) by (now apply N.pow_nonzero); lia).
  assert (W : w128 (x * 10) = x * 10) by (unfold w128; apply N.mod_small; nia).
  rewrite W, IH; [ring|]. rewrite <- N.mul_assoc. exact H.
Qed.
Lemma iter_mul10_le : forall n x, iter_n n (fun x => w128 (x * 10)) x <= x * 10 ^ N.of_nat n.
Proof.
  induction n as [|n IH]; intros x; [simpl; lia|]. rewrite Nat2N.inj_succ, N.pow_succ_r'. cbn [iter_n].
  etransitivity; [apply IH|]. rewrite N.mul_assoc. apply N.mul_le_mono_r. apply N.mod_le. discriminate.
Qed.
Lemma iter_div10 : forall n x, iter_n n (fun x => x / 10) x = x / 10 ^ N.of_nat n.
Proof.
  induction n as [|n IH]; intros x; [simpl; now rewrite N.div_1_r|].
  cbn [iter_n]. rewrite IH, Nat2N.inj_succ, N.pow_succ_r', N.div_div by (try discriminate; now apply N.pow_nonzero). reflexivity.
Qed.

Lemma index_of_none : forall f s, Forall (fun c => f c = false) s -> index_of f s = None.
Proof. induction 1; simpl; auto. now rewrite H, IHForall. Qed.
Lemma index_of_first : forall f s c r, Forall (fun c => f c = false) s -> f c = true -> index_of f (s ++ c :: r) = Some (length s).
Proof. induction 1; simpl; intros E; [now rewrite E|]. now rewrite H, IHForall. Qed.

Lemma digit_not : forall f s, (forall c, 48 <= c <= 57 -> f c = false) -> digits s -> Forall (fun c => f c = false) s.
Proof. intros f s H D. unfold digits in D. eapply Forall_impl; [|exact D]. intros c Hc. apply H, is_digit_spec, Hc. Qed.

Lemma not_dec : forall c, 48 <= c <= 57 -> (c =? 46) || (c =? 44) = false.
Proof. intros. destruct (N.eqb_spec c 46), (N.eqb_spec c 44); try lia; reflexivity. Qed.
Lemma not_exp : forall c, 48 <= c <= 57 -> (c =? 101) || (c =? 69) = false.
Proof. intros. destruct (N.eqb_spec c 101), (N.eqb_spec c 69); try lia; reflexivity. Qed.

Lemma digits_forallb : forall s, digits s -> forallb is_digit s = true.
Proof. intros s D. apply forallb_forall. unfold digits in D. now rewrite Forall_forall in D. Qed.

Lemma charset_digits : forall s, digits s ->
  forallb (fun c => is_digit c || ((c =? 46) || (c =? 44)) || ((c =? 101) || (c =? 69)) || (c =? 45)) s = true.
Proof. intros s D. apply forallb_forall. unfold digits in D. rewrite Forall_forall in D. intros c Hc. now rewrite D. Qed.

Lemma fix_round_trip : forall x, x < 2 ^ 128 -> fix_from_string (fix_to_string x) = Some x.
Proof.
  intros x Hx. unfold fix_to_string.
  assert (DM : x = fix_divider * (x / fix_divider) + x mod fix_divider) by (apply N.div_mod; discriminate).
  assert (HM : x mod fix_divider < fix_divider) by (now apply N.mod_lt).
  set (q := x / fix_divider) in *. set (r := x mod fix_divider) in *. clearbody q r. unfold fix_divider in *.
  destruct (dec_spec q) as (Vq & Dq & Nq & _).
  assert (Hq : q < 2 ^ 128) by lia.
  assert (Pq : parse_dec (dec q) = Some q) by (rewrite parse_dec_val, Vq, N.mod_small; auto).
  destruct (N.eqb_spec r 0) as [R0|R0].
  - unfold fix_from_string. rewrite charset_digits by auto.
    replace (length (dec q) =? 0)%nat with false by (destruct (dec q); [congruence|reflexivity]). cbn [orb negb].
    rewrite (index_of_none _ (dec q)) by (apply digit_not; auto using not_dec).
    rewrite (index_of_none _ (dec q)) by (apply digit_not; auto using not_exp).
    rewrite Pq. f_equal. unfold w128, fix_divider. rewrite N.mod_small; lia.
  - destruct (dec_spec r) as (Vr & Dr & Nr & Lr).
    assert (Lr' : (length (dec r) <= 15)%nat) by (apply (Lr 14%nat); exact HM).
    destruct (strip_spec (dec r)) as [k Hk]. set (F := strip_zeros (dec r)) in *.
    set (z := (fix_decimals - length (dec r))%nat) in *.
    assert (DF : digits F). { unfold digits in *. rewrite Hk in Dr. apply Forall_app in Dr. apply Dr. }
    assert (DZ : digits (repeat 48 z)). { apply Forall_forall. intros c Hc. apply repeat_spec in Hc. subst. reflexivity. }
    assert (DZF : digits (repeat 48 z ++ F)) by (apply Forall_app; auto).
    assert (LF : (length (repeat 48%N z ++ F) + k = 15)%nat).
    { rewrite app_length, repeat_length. pose proof (f_equal (@length N) Hk) as L1. rewrite app_length, repeat_length in L1.
      unfold z, fix_decimals. lia. }
    assert (VF : dval (repeat 48 z ++ F) * 10 ^ N.of_nat k = r).
    { rewrite dval_lead. rewrite <- dval_zeros, <- Hk. exact Vr. }
    unfold fix_from_string. set (s := dec q ++ [46] ++ repeat 48 z ++ F).
    assert (CS : forallb (fun c => is_digit c || ((c =? 46) || (c =? 44)) || ((c =? 101) || (c =? 69)) || (c =? 45)) s = true).
    { unfold s. rewrite !forallb_app, (charset_digits (dec q)), (charset_digits (repeat 48 z)), (charset_digits F) by auto. reflexivity. }
    rewrite CS. replace (length s =? 0)%nat with false by (unfold s; destruct (dec q); [congruence|reflexivity]). cbn [orb negb].
    assert (I1 : index_of (fun c => (c =? 46) || (c =? 44)) s = Some (length (dec q))).
    { unfold s. cbn [app]. apply index_of_first; [apply digit_not; auto using not_dec|reflexivity]. }
    assert (I2 : index_of (fun c => (c =? 101) || (c =? 69)) s = None).
    { apply index_of_none. unfold s. apply Forall_app. split; [apply digit_not; auto using not_exp|].
      constructor; [reflexivity|]. apply digit_not; auto using not_exp. }
    rewrite I1, I2.
    assert (F1 : firstn (length (dec q)) s = dec q) by (unfold s; rewrite firstn_app, firstn_all, Nat.sub_diag; simpl; apply app_nil_r).
    rewrite F1. rewrite digits_forallb by auto.
    replace (length (dec q) =? 0)%nat with false by (destruct (dec q); [congruence|reflexivity]). cbn [orb negb].
    rewrite Pq.
    assert (S1 : skipn (length (dec q) + 1) s = repeat 48 z ++ F).
    { unfold s. rewrite skipn_app, skipn_all2 by lia. replace (length (dec q) + 1 - length (dec q))%nat with 1%nat by lia. reflexivity. }
    rewrite S1. set (G := repeat 48 z ++ F) in *.
    rewrite firstn_all2 by (unfold fix_decimals; lia).
    rewrite parse_dec_val by auto.
    assert (P10 : 1 <= 10 ^ N.of_nat k) by (assert (10 ^ N.of_nat k <> 0) by (now apply N.pow_nonzero); lia).
    assert (GB : dval G <= r) by nia.
    rewrite N.mod_small by lia.
    replace (fix_decimals - length G)%nat with k by (unfold fix_decimals; lia).
    rewrite iter_mul10 by (rewrite VF; lia). rewrite VF.
    unfold w128, fix_divider. rewrite (N.mod_small (q * _)) by lia. rewrite N.mod_small by lia. f_equal. lia.
Qed.

(** *** conversions *)
Lemma pow10_split : forall a b, (a <= b)%nat -> 10 ^ N.of_nat b = 10 ^ N.of_nat a * 10 ^ N.of_nat (b - a).
Proof. intros. rewrite <- N.pow_add_r. f_equal. lia. Qed.
Lemma pow10_nz : forall n, 10 ^ n <> 0.
Proof. intros. now apply N.pow_nonzero. Qed.

Lemma to_amount_le : forall x d, fix_to_amount x d * 10 ^ 15 <= x * 10 ^ N.of_nat d.
Proof.
  intros x d. unfold fix_to_amount, fix_decimals. destruct (Nat.ltb_spec d 15) as [L|L].
  - rewrite iter_div10. change (10 ^ 15) with (10 ^ N.of_nat 15). rewrite (pow10_split d 15) by lia.
    pose proof (N.mul_div_le x (10 ^ N.of_nat (15 - d)) (pow10_nz _)) as H.
    set (P := 10 ^ N.of_nat (15 - d)) in *. set (D := 10 ^ N.of_nat d). nia.
  - pose proof (iter_mul10_le (d - 15) x) as H. rewrite (pow10_split 15 d) by lia. change (10 ^ N.of_nat 15) with (10 ^ 15).
    set (I := iter_n _ _ _) in *. set (P := 10 ^ N.of_nat (d - 15)) in *. nia.
Qed.

Lemma of_amount_val : forall v d x, fix_of_amount v d = Some x -> x = v * 10 ^ 15 / 10 ^ N.of_nat d.
Proof.
  intros v d x H. unfold fix_of_amount in H. rewrite iter_div10 in H. destruct (_ <=? _); [discriminate|]. injection H as <-. reflexivity.
Qed.

Lemma amount_round_trip : forall v d x, (d <= 15)%nat -> v < 2 ^ 128 -> fix_of_amount v d = Some x -> fix_to_amount x d = v.
Proof.
  intros v d x Hd Hv H. apply of_amount_val in H. subst x.
  change (10 ^ 15) with (10 ^ N.of_nat 15). rewrite (pow10_split d 15) by lia.
  rewrite (N.mul_comm (10 ^ N.of_nat d)), N.mul_assoc, N.div_mul by apply pow10_nz.
  unfold fix_to_amount, fix_decimals. destruct (Nat.ltb_spec d 15) as [L|L].
  - rewrite iter_div10. apply N.div_mul, pow10_nz.
  - assert (d = 15%nat) by lia. subst. simpl. lia.
Qed.

Lemma amount_never_grows : forall v d x, fix_of_amount v d = Some x -> fix_to_amount x d <= v.
Proof.
  intros v d x H. apply of_amount_val in H.
  pose proof (to_amount_le x d) as L. pose proof (N.mul_div_le (v * 10 ^ 15) (10 ^ N.of_nat d) (pow10_nz _)) as M.
  rewrite <- H in M. assert (fix_to_amount x d * 10 ^ 15 <= v * 10 ^ 15) by (rewrite (N.mul_comm x) in L; lia).
  apply N.mul_le_mono_pos_r in H0; auto. reflexivity.
Qed.
