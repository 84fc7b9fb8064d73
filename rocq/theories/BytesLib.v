(** Byte strings and fixed-width integers. *)
Require Import List NArith Lia Bool.
From Verif Require Import OrdLib.
Import ListNotations.
Open Scope N_scope.

Definition bytes := list N.
Definition bytes_ok (l : bytes) : Prop := Forall (fun b => b < 256) l.

(** [n] bytes, least significant first *)
Fixpoint le_bytes (n : nat) (x : N) : bytes :=
  match n with O => [] | S k => x mod 256 :: le_bytes k (x / 256) end.
Fixpoint of_le (l : bytes) : N :=
  match l with [] => 0 | b :: l' => b + 256 * of_le l' end.
(** most significant first *)
Definition be_bytes (n : nat) (x : N) : bytes := rev (le_bytes n x).
Definition of_be (l : bytes) : N := of_le (rev l).

Lemma bytes_ok_app : forall a b, bytes_ok (a ++ b) <-> bytes_ok a /\ bytes_ok b.
Proof. intros. apply Forall_app. Qed.
Lemma bytes_ok_rev : forall a, bytes_ok a -> bytes_ok (rev a).
Proof. intros. now apply Forall_rev. Qed.

Lemma le_length : forall n x, length (le_bytes n x) = n.
Proof. induction n; intros; simpl; auto. Qed.
Lemma be_length : forall n x, length (be_bytes n x) = n.
Proof. intros. unfold be_bytes. now rewrite rev_length, le_length. Qed.
Lemma le_ok : forall n x, bytes_ok (le_bytes n x).
Proof. induction n; intros; simpl; constructor; [now apply N.mod_lt|apply IHn]. Qed.
Lemma be_ok : forall n x, bytes_ok (be_bytes n x).
Proof. intros. apply bytes_ok_rev, le_ok. Qed.

Lemma of_le_bound : forall l, bytes_ok l -> of_le l < 256 ^ N.of_nat (length l).
Proof.
  induction 1 as [|b l Hb H IH]; [reflexivity|]. cbn [of_le length].
  rewrite Nat2N.inj_succ, N.pow_succ_r'. lia.
Qed.
Lemma pow256_nz : forall n, 256 ^ n <> 0.
Proof. intros. now apply N.pow_nonzero. Qed.

Lemma of_le_le : forall n x, of_le (le_bytes n x) = x mod 256 ^ N.of_nat n.
Proof.
  induction n; intros x.
  - simpl. now rewrite N.mod_1_r.
  - cbn [of_le le_bytes]. rewrite IHn, Nat2N.inj_succ, N.pow_succ_r'.
    rewrite N.mod_mul_r by (try discriminate; apply pow256_nz). lia.
Qed.
Lemma of_le_le_small : forall n x, x < 256 ^ N.of_nat n -> of_le (le_bytes n x) = x.
Proof. intros. rewrite of_le_le. now apply N.mod_small. Qed.

Lemma le_of_le : forall l, bytes_ok l -> le_bytes (length l) (of_le l) = l.
Proof.
  induction 1 as [|b l Hb H IH]; [reflexivity|]. cbn [of_le length le_bytes].
  replace (b + 256 * of_le l) with (b + of_le l * 256) by lia.
  rewrite N.mod_add, N.div_add by discriminate.
  rewrite N.mod_small, N.div_small by auto. simpl. now rewrite IH.
Qed.
Lemma of_be_be : forall n x, of_be (be_bytes n x) = x mod 256 ^ N.of_nat n.
Proof. intros. unfold of_be, be_bytes. rewrite rev_involutive. apply of_le_le. Qed.
Lemma of_be_be_small : forall n x, x < 256 ^ N.of_nat n -> of_be (be_bytes n x) = x.
Proof. intros. rewrite of_be_be. now apply N.mod_small. Qed.
Lemma be_of_be : forall l, bytes_ok l -> be_bytes (length l) (of_be l) = l.
Proof.
  intros l H. unfold be_bytes, of_be. rewrite <- (rev_length l), le_of_le by now apply bytes_ok_rev.
  apply rev_involutive.
Qed.
Lemma of_be_bound : forall l, bytes_ok l -> of_be l < 256 ^ N.of_nat (length l).
Proof. intros. unfold of_be. rewrite <- (rev_length l). now apply of_le_bound, bytes_ok_rev. Qed.

Lemma le_inj : forall n x y, x < 256 ^ N.of_nat n -> y < 256 ^ N.of_nat n -> le_bytes n x = le_bytes n y -> x = y.
Proof. intros n x y Hx Hy E. apply (f_equal of_le) in E. now rewrite !of_le_le_small in E. Qed.
Lemma be_inj : forall n x y, x < 256 ^ N.of_nat n -> y < 256 ^ N.of_nat n -> be_bytes n x = be_bytes n y -> x = y.
Proof. intros n x y Hx Hy E. apply (f_equal of_be) in E. now rewrite !of_be_be_small in E. Qed.

(** Byte-wise comparison of equally long strings: the first difference decides. *)
Lemma bytescmp_app : forall a b c d, length a = length b ->
  bytescmp (a ++ c) (b ++ d) = match bytescmp a b with Eq => bytescmp c d | o => o end.
Proof.
  induction a as [|x a IH]; intros [|y b] c d H; try discriminate; [reflexivity|].
  cbn [app bytescmp]. destruct (N.compare x y); auto.
Qed.

Lemma bytescmp_be_of : forall a b, bytes_ok a -> bytes_ok b -> length a = length b ->
  bytescmp a b = N.compare (of_be a) (of_be b).
Proof.
  induction a as [|x a IH] using rev_ind; intros b Ha Hb HL.
  - destruct b; [reflexivity|discriminate].
  - destruct b as [|y b _] using rev_ind; [rewrite app_length in HL; simpl in HL; lia|].
    rewrite !app_length in HL. simpl in HL. assert (HL' : length a = length b) by lia.
    apply bytes_ok_app in Ha, Hb. destruct Ha as [Ha Hx], Hb as [Hb Hy].
    inversion Hx; inversion Hy; subst. rewrite bytescmp_app, IH by auto.
    unfold of_be. rewrite !rev_app_distr. cbn [app rev of_le bytescmp].
    set (u := of_le (rev a)). set (w := of_le (rev b)).
    symmetry. destruct (N.compare_spec u w) as [E|E|E].
    + destruct (N.compare_spec x y).
      * apply N.compare_eq_iff. lia.
      * apply N.compare_lt_iff. lia.
      * apply N.compare_gt_iff. lia.
    + apply N.compare_lt_iff. lia.
    + apply N.compare_gt_iff. lia.
Qed.

Lemma bytescmp_be : forall n x y, x < 256 ^ N.of_nat n -> y < 256 ^ N.of_nat n ->
  bytescmp (be_bytes n x) (be_bytes n y) = N.compare x y.
Proof.
  intros. rewrite bytescmp_be_of by (auto using be_ok; now rewrite !be_length). now rewrite !of_be_be_small.
Qed.

Lemma app_len_inj : forall (A : Type) (a b c d : list A), length a = length b -> a ++ c = b ++ d -> a = b /\ c = d.
Proof.
  induction a as [|x a IH]; intros [|y b] c d HL E; try discriminate; auto.
  simpl in *. injection E as -> E. injection HL as HL. destruct (IH b c d HL E). subst; auto.
Qed.
