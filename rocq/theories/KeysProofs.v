Require Import List NArith Lia Bool Arith.
From Verif Require Import OrdLib BytesLib DbModel KeysModel KeysSpec.
Import ListNotations.
Open Scope N_scope.

(** fixed-size field: writer, reader on exactly n bytes *)
Record field {K : Type} (n : nat) (ok : K -> Prop) (cmp : K -> K -> comparison) (w : K -> bytes) (r : bytes -> K) : Prop := {
  f_len : forall k, ok k -> length (w k) = n;
  f_bytes : forall k, ok k -> bytes_ok (w k);
  f_round : forall k, ok k -> r (w k) = k;
  f_cmp : forall k k', ok k -> ok k' -> bytescmp (w k) (w k') = cmp k k';
  f_only : forall e, bytes_ok e -> length e = n -> ok (r e) /\ w (r e) = e
}.

Lemma field_uint : forall w, field w (uint_ok w) N.compare (be_bytes w) of_be.
Proof.
  intros w. split.
  - intros; apply be_length.
  - intros; apply be_ok.
  - intros; now apply of_be_be_small.
  - intros; now apply bytescmp_be.
  - intros e H <-. split; [now apply of_be_bound|now apply be_of_be].
Qed.

Lemma field_hash : forall n, field n (hash_ok n) bytescmp hash_write (fun e => e).
Proof. intros n. split; unfold hash_ok, hash_write; try tauto. Qed.

Lemma field_pair : forall A B n m oka okb ca cb wa wb ra rb,
  @field A n oka ca wa ra -> @field B m okb cb wb rb ->
  field (n + m) (fun k => oka (fst k) /\ okb (snd k)) (lexcmp ca cb)
    (fun k => wa (fst k) ++ wb (snd k)) (fun e => (ra (firstn n e), rb (firstn m (skipn n e)))).
Proof.
  intros A B n m oka okb ca cb wa wb ra rb FA FB. split; intros.
  - destruct k as [a b], H as [Ha Hb]. simpl in *. rewrite app_length, (f_len _ _ _ _ _ FA), (f_len _ _ _ _ _ FB); auto.
  - destruct H as [Ha Hb]. apply bytes_ok_app. split; [apply (f_bytes _ _ _ _ _ FA)|apply (f_bytes _ _ _ _ _ FB)]; auto.
  - destruct k as [a b], H as [Ha Hb]. simpl in *.
    pose proof (f_len _ _ _ _ _ FA a Ha) as La. pose proof (f_len _ _ _ _ _ FB b Hb) as Lb.
    rewrite firstn_app, skipn_app, <- La, firstn_all, skipn_all, Nat.sub_diag, app_nil_l. simpl.
    rewrite app_nil_r, <- Lb, firstn_all, (f_round _ _ _ _ _ FA), (f_round _ _ _ _ _ FB); auto.
  - destruct k as [a b], k' as [a' b'], H as [Ha Hb], H0 as [Ha' Hb']. simpl in *.
    rewrite bytescmp_app by (rewrite !(f_len _ _ _ _ _ FA); auto).
    unfold lexcmp. simpl. now rewrite (f_cmp _ _ _ _ _ FA), (f_cmp _ _ _ _ _ FB).
  - assert (E : e = firstn n e ++ skipn n e) by (symmetry; apply firstn_skipn).
    rewrite E in H. apply bytes_ok_app in H. destruct H as [H1 H2].
    assert (L1 : length (firstn n e) = n) by (rewrite firstn_length; lia).
    assert (L2 : length (skipn n e) = m) by (rewrite skipn_length; lia).
    assert (F2 : firstn m (skipn n e) = skipn n e) by (rewrite <- L2 at 1; apply firstn_all).
    rewrite F2. destruct (f_only _ _ _ _ _ FA _ H1 L1) as [Oa Ea]. destruct (f_only _ _ _ _ _ FB _ H2 L2) as [Ob Eb].
    simpl. rewrite Ea, Eb. auto.
Qed.

Lemma default_cmp_same : forall x y, length x = length y -> default_cmp x y = bytescmp x y.
Proof. intros x y H. unfold default_cmp. now rewrite H, Nat.compare_refl. Qed.

Lemma field_good : forall K n ok cmp w r (rd : bytes -> option K), field n ok cmp w r ->
  (forall e, rd e = if (length e =? n)%nat then Some (r e) else None) -> good_key ok cmp w rd.
Proof.
  intros K n ok cmp w r rd F E. split; intros.
  - rewrite E, (f_len _ _ _ _ _ F), Nat.eqb_refl, (f_round _ _ _ _ _ F); auto.
  - now apply (f_bytes _ _ _ _ _ F).
  - apply (f_equal r) in H1. now rewrite !(f_round _ _ _ _ _ F) in H1.
  - rewrite default_cmp_same, (f_cmp _ _ _ _ _ F); auto. rewrite !(f_len _ _ _ _ _ F); auto.
  - rewrite E in H0. destruct (Nat.eqb_spec (length e) n); [|discriminate]. injection H0 as <-.
    now apply (f_only _ _ _ _ _ F).
Qed.

Lemma field_ext : forall K n ok cmp w r w' r' ok' cmp', @field K n ok cmp w r ->
  (forall k, w k = w' k) -> (forall e, r e = r' e) -> (forall k, ok k <-> ok' k) -> (forall a b, cmp a b = cmp' a b) ->
  field n ok' cmp' w' r'.
Proof.
  intros K n ok cmp w r w' r' ok' cmp' F Ew Er Eo Ec. split; intros; rewrite <- ?Ew, <- ?Er, <- ?Ec.
  - apply F, Eo; auto.
  - apply F, Eo; auto.
  - apply F, Eo; auto.
  - apply F; apply Eo; auto.
  - rewrite <- Eo. apply F; auto.
Qed.

Lemma uint_good : forall w, good_key (uint_ok w) N.compare (uint_write w) (uint_read w).
Proof.
  intros w. eapply field_good; [apply field_uint|]. intros e. unfold uint_read.
  destruct (Nat.eqb_spec (length e) w) as [<-|]; [now rewrite firstn_all|reflexivity].
Qed.
Lemma uint_uint_good : forall w v,
  good_key (fun k => uint_ok w (fst k) /\ uint_ok v (snd k)) (lexcmp N.compare N.compare) (uint_uint_write w v) (uint_uint_read w v).
Proof. intros. eapply field_good; [apply field_pair; apply field_uint|]. reflexivity. Qed.
Lemma hash_good : forall n, good_key (hash_ok n) bytescmp hash_write (hash_read n).
Proof.
  intros. eapply field_good; [apply field_hash|]. intros e. unfold hash_read.
  destruct (Nat.eqb_spec (length e) n) as [<-|]; [now rewrite firstn_all|reflexivity].
Qed.
Lemma hash_uint_good : forall n w,
  good_key (fun k => hash_ok n (fst k) /\ uint_ok w (snd k)) (lexcmp bytescmp N.compare) (hash_uint_write w) (hash_uint_read n w).
Proof. intros. eapply field_good; [exact (field_pair _ _ _ _ _ _ _ _ _ _ _ _ (field_hash n) (field_uint w))|]. reflexivity. Qed.
Lemma hash_uint_uint_good : forall n w v,
  good_key (fun k => hash_ok n (fst (fst k)) /\ uint_ok w (snd (fst k)) /\ uint_ok v (snd k))
    (lexcmp (lexcmp bytescmp N.compare) N.compare) (hash_uint_uint_write w v) (hash_uint_uint_read n w v).
Proof.
  intros. eapply field_good.
  - eapply field_ext; [apply field_pair; [apply field_pair; [apply (field_hash n)|apply (field_uint w)]|apply (field_uint v)]
      |..]; [| |simpl; tauto|reflexivity].
    + intros [[h x] y]. simpl. rewrite <- app_assoc. reflexivity.
    + intros e. simpl. reflexivity.
  - intros e. unfold hash_uint_uint_read. destruct (Nat.eqb_spec (length e) (n + w + v)) as [E|E]; [|reflexivity].
    replace (firstn n (firstn (n + w) e)) with (firstn n e) by (rewrite firstn_firstn; f_equal; lia).
    replace (firstn w (skipn n (firstn (n + w) e))) with (firstn w (skipn n e)); [reflexivity|].
    rewrite skipn_firstn_comm, firstn_firstn. f_equal. lia.
Qed.
Lemma balance_good :
  good_key (fun k => hash_ok 32 (fst k) /\ hash_ok 32 (snd k)) (lexcmp bytescmp bytescmp) balance_write balance_read.
Proof. eapply field_good; [exact (field_pair _ _ _ _ _ _ _ _ _ _ _ _ (field_hash 32) (field_hash 32))|]. reflexivity. Qed.
