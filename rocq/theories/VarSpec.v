(** What it means for a VM value to survive storage, and the order on VM values.  Independent of the codec. *)
Require Import List Arith NArith ZArith Lia Bool.
From Verif Require Import BytesLib VarModel.
Import ListNotations.
Open Scope N_scope.

(** the values the C++ classes can hold: field widths, and a binary is shorter than 2^32 - 1 bytes *)
Definition val_ok (v : val) : Prop :=
  match v with
  | VNil | VFalse | VTrue => True
  | VRef a | VMap a => a < 2 ^ 64
  | VUint x => x < 2 ^ 256
  | VString d | VBinary d => bytes_ok d /\ N.of_nat (length d) < 2 ^ 32 - 1
  | VArray a n => a < 2 ^ 64 /\ n < 2 ^ 32
  end.
Definition var_ok (v : var) : Prop := v_rc v < 2 ^ 32 /\ v_flags v < 256 /\ val_ok (v_val v).

(** a buffer holding [b], with [junk] in the memory behind it *)
Definition buffer (b : bytes) (junk : memory) : memory :=
  fun i => if (i <? length b)%nat then nth i b 0 else junk (i - length b)%nat.

(** what is left of a value when the reference count and/or the flags are not stored *)
Definition stored_part (v : var) (with_rc with_vf : bool) : var :=
  {| v_rc := if with_rc then v_rc v else 0; v_flags := if with_vf then v_flags v else 0; v_val := v_val v |}.

(** the widths an integer can be stored with, and the one that must be used *)
Definition widths : list nat := [2; 4; 8; 16; 32]%nat.
Definition shortest (x : N) (w : nat) : Prop :=
  In w widths /\ x < 256 ^ N.of_nat w /\ forall u, In u widths -> x < 256 ^ N.of_nat u -> (w <= u)%nat.

(** two values a comparison must tell apart, except that an array is identified by its address *)
Definition same_value (a b : val) : Prop :=
  match a, b with
  | VArray x _, VArray y _ => x = y
  | _, _ => a = b
  end.
Definition same_ptr (a b : option val) : Prop :=
  match a, b with
  | Some x, Some y => same_value x y
  | None, None => True
  | _, _ => False
  end.
