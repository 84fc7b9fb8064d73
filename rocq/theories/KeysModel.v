(** Byte keys of the typed tables (include/mmx/table.h, include/mmx/multi_table.h).
    [vnx::to_big_endian] + [vnx::write_value] is [be_bytes] of the width of the integer type (in bytes);
    hashes, addresses and public keys are their raw bytes. A failing size check is [None]. *)
Require Import List Arith NArith Bool.
From Verif Require Import OrdLib BytesLib.
Import ListNotations.
Open Scope N_scope.

(** include/mmx/table.h:350-366 (uint_table) *)
Definition uint_write (w : nat) (k : N) : bytes := be_bytes w k.
Definition uint_read (w : nat) (e : bytes) : option N :=
  if (length e =? w)%nat then Some (of_be (firstn w e)) else None.

(** include/mmx/table.h:368-387 (uint_uint_table); include/mmx/multi_table.h:188-207 (uint_multi_table) *)
Definition uint_uint_write (w v : nat) (k : N * N) : bytes := be_bytes w (fst k) ++ be_bytes v (snd k).
Definition uint_uint_read (w v : nat) (e : bytes) : option (N * N) :=
  if (length e =? w + v)%nat then Some (of_be (firstn w e), of_be (firstn v (skipn w e))) else None.

(** include/mmx/table.h:389-406 (hash_table) *)
Definition hash_write (k : bytes) : bytes := k.
Definition hash_read (n : nat) (e : bytes) : option bytes :=
  if (length e =? n)%nat then Some (firstn n e) else None.

(** include/mmx/table.h:408-431 (hash_uint_table); include/mmx/multi_table.h:209-228 (hash_multi_table) *)
Definition hash_uint_write (w : nat) (k : bytes * N) : bytes := fst k ++ be_bytes w (snd k).
Definition hash_uint_read (n w : nat) (e : bytes) : option (bytes * N) :=
  if (length e =? n + w)%nat then Some (firstn n e, of_be (firstn w (skipn n e))) else None.

(** include/mmx/table.h:433-459 (hash_uint_uint_table); include/mmx/multi_table.h:230-253 (hash_uint_multi_table) *)
Definition hash_uint_uint_write (w v : nat) (k : bytes * N * N) : bytes :=
  let '(h, x, y) := k in h ++ be_bytes w x ++ be_bytes v y.
Definition hash_uint_uint_read (n w v : nat) (e : bytes) : option (bytes * N * N) :=
  if (length e =? n + w + v)%nat
  then Some (firstn n e, of_be (firstn w (skipn n e)), of_be (firstn v (skipn (n + w) e)))
  else None.

(** include/mmx/table.h:461-480 (balance_table_t) *)
Definition balance_write (k : bytes * bytes) : bytes := fst k ++ snd k.
Definition balance_read (e : bytes) : option (bytes * bytes) :=
  if (length e =? 64)%nat then Some (firstn 32 e, firstn 32 (skipn 32 e)) else None.
