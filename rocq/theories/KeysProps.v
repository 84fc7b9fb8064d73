(** C10: byte keys keep identity and order, for every table shape. Widths are in bytes. *)
Require Import List NArith.
From Verif Require Import OrdLib BytesLib DbModel KeysModel KeysSpec KeysProofs.
Import ListNotations.
Open Scope N_scope.

Theorem C10_uint_keys : forall w, good_key (uint_ok w) N.compare (uint_write w) (uint_read w).
Proof. exact uint_good. Qed.
Print Assumptions C10_uint_keys.
Theorem C10_uint_uint_keys : forall w v,
  good_key (fun k => uint_ok w (fst k) /\ uint_ok v (snd k)) (lexcmp N.compare N.compare)
    (uint_uint_write w v) (uint_uint_read w v).
Proof. exact uint_uint_good. Qed.
Print Assumptions C10_uint_uint_keys.
Theorem C10_hash_keys : forall n, good_key (hash_ok n) bytescmp hash_write (hash_read n).
Proof. exact hash_good. Qed.
Print Assumptions C10_hash_keys.
Theorem C10_hash_uint_keys : forall n w,
  good_key (fun k => hash_ok n (fst k) /\ uint_ok w (snd k)) (lexcmp bytescmp N.compare)
    (hash_uint_write w) (hash_uint_read n w).
Proof. exact hash_uint_good. Qed.
Print Assumptions C10_hash_uint_keys.
Theorem C10_hash_uint_uint_keys : forall n w v,
  good_key (fun k => hash_ok n (fst (fst k)) /\ uint_ok w (snd (fst k)) /\ uint_ok v (snd k))
    (lexcmp (lexcmp bytescmp N.compare) N.compare) (hash_uint_uint_write w v) (hash_uint_uint_read n w v).
Proof. exact hash_uint_uint_good. Qed.
Print Assumptions C10_hash_uint_uint_keys.
Theorem C10_balance_keys :
  good_key (fun k => hash_ok 32 (fst k) /\ hash_ok 32 (snd k)) (lexcmp bytescmp bytescmp) balance_write balance_read.
Proof. exact balance_good. Qed.
Print Assumptions C10_balance_keys.

Example C10_ex1 : uint_uint_write 4 4 (258, 70000) = [0; 0; 1; 2; 0; 1; 17; 112] /\
  uint_uint_read 4 4 [0; 0; 1; 2; 0; 1; 17; 112] = Some (258, 70000) /\
  default_cmp (uint_uint_write 4 4 (258, 70000)) (uint_uint_write 4 4 (1000, 3)) = Lt /\
  lexcmp N.compare N.compare (258, 70000) (1000, 3) = Lt.
Proof. vm_compute. auto. Qed.
Example C10_ex2 : uint_ok 4 4294967295 /\ ~ uint_ok 4 4294967296 /\ hash_ok 3 [1; 255; 0].
Proof. unfold uint_ok, hash_ok. split; [reflexivity|]. split; [intros H; vm_compute in H; discriminate|].
  split; [reflexivity|]. repeat constructor. Qed.
