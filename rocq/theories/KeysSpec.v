(** What a key encoding must satisfy. *)
Require Import List NArith.
From Verif Require Import OrdLib BytesLib DbModel.

(** [ok]: the values of the key's C++ type; [cmp]: the order of that type; keys are stored in tables ordered by
    [default_cmp]. *)
Record good_key {K : Type} (ok : K -> Prop) (cmp : K -> K -> comparison)
    (write : K -> bytes) (read : bytes -> option K) : Prop := {
  gk_round : forall k, ok k -> read (write k) = Some k;
  gk_bytes : forall k, ok k -> bytes_ok (write k);
  gk_distinct : forall k k', ok k -> ok k' -> write k = write k' -> k = k';
  gk_order : forall k k', ok k -> ok k' -> default_cmp (write k) (write k') = cmp k k';
  gk_only : forall e k, bytes_ok e -> read e = Some k -> ok k /\ write k = e
}.

Definition uint_ok (w : nat) (x : N) : Prop := (x < 256 ^ N.of_nat w)%N.
Definition hash_ok (n : nat) (h : bytes) : Prop := length h = n /\ bytes_ok h.
