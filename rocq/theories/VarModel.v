(** VM values: storage encoding and ordering.
    Models /repo/src/vm/var_t.cpp and /repo/include/mmx/vm/var_t.h. *)
Require Import List Arith NArith ZArith Lia Bool.
From Verif Require Import BytesLib.
Import ListNotations.
Open Scope N_scope.

(** include/mmx/vm/var_t.h:67-266.  The class hierarchy [var_t], [ref_t], [uint_t], [binary_t], [array_t], [map_t].
    A binary object is represented by its bytes; [capacity] is not represented. *)
Inductive val :=
| VNil | VFalse | VTrue
| VRef (addr : N)
| VUint (x : N)
| VString (data : bytes)
| VBinary (data : bytes)
| VArray (addr size : N)
| VMap (addr : N).
Record var := { v_rc : N; v_flags : N; v_val : val }.

(** include/mmx/vm/var_t.h:47-65, [vartype_e] of the object in memory *)
Definition type_of (v : val) : N :=
  match v with
  | VNil => 0 | VFalse => 1 | VTrue => 2 | VRef _ => 3 | VUint _ => 4
  | VString _ => 5 | VBinary _ => 6 | VArray _ _ => 7 | VMap _ => 8
  end.
Definition TYPE_UINT16 := 9.
Definition TYPE_UINT32 := 10.
Definition TYPE_UINT64 := 11.
Definition TYPE_UINT128 := 12.
Definition TYPE_UINT256 := 13.

(** src/vm/var_t.cpp:47-101 [compare(const var_t&, const var_t&)]; the result is negative, zero or positive.
    [memcmp] is the sign of the difference of the first differing bytes. *)
Fixpoint memcmp (a b : bytes) : Z :=
  match a, b with
  | x :: a, y :: b => if x =? y then memcmp a b else if x <? y then (-1)%Z else 1%Z
  | _, _ => 0%Z
  end.
Definition cmp_num (x y : N) : Z := if x =? y then 0%Z else if x <? y then (-1)%Z else 1%Z.
Definition cmp_bin (a b : bytes) : Z :=
  if N.of_nat (length a) =? N.of_nat (length b) then memcmp a b
  else if N.of_nat (length a) <? N.of_nat (length b) then (-1)%Z else 1%Z.
Definition compare (l r : val) : Z :=
  if negb (type_of l =? type_of r) then (if type_of l <? type_of r then (-1)%Z else 1%Z)
  else match l, r with
  | VRef a, VRef b => cmp_num a b
  | VUint a, VUint b => cmp_num a b
  | VString a, VString b => cmp_bin a b
  | VBinary a, VBinary b => cmp_bin a b
  | VArray a _, VArray b _ => cmp_num a b
  | VMap a, VMap b => cmp_num a b
  | _, _ => 0%Z
  end.

(** src/vm/var_t.cpp:103-112 [compare] on pointers; [None] is the null pointer *)
Definition compare_ptr (l r : option val) : Z :=
  match l, r with
  | Some l, Some r => compare l r
  | None, None => 0%Z
  | _, Some _ => (-1)%Z
  | _, None => 1%Z
  end.

(** src/vm/var_t.cpp:142-179, the switch writing the value; returns the type byte and the bytes behind it.
    The integer objects are little endian in memory. *)
Definition put_uint (x : N) : N * bytes :=
  if negb (N.shiftr x 128 =? 0) then (TYPE_UINT256, le_bytes 32 x)
  else if negb (N.shiftr x 64 =? 0) then (TYPE_UINT128, le_bytes 16 x)
  else if negb (N.shiftr x 32 =? 0) then (TYPE_UINT64, le_bytes 8 x)
  else if negb (N.shiftr x 16 =? 0) then (TYPE_UINT32, le_bytes 4 x)
  else (TYPE_UINT16, le_bytes 2 x).
(** lines 142-198 *)
Definition put_val (v : val) : N * bytes :=
  match v with
  | VNil | VFalse | VTrue => (type_of v, [])
  | VRef a => (3, le_bytes 8 a)
  | VUint x => put_uint x
  | VString d => (5, le_bytes 4 (N.of_nat (length d)) ++ d)
  | VBinary d => (6, le_bytes 4 (N.of_nat (length d)) ++ d)
  | VArray a n => (7, le_bytes 8 a ++ le_bytes 4 n)
  | VMap a => (8, le_bytes 8 a)
  end.
(** src/vm/var_t.cpp:114-200 [serialize] *)
Definition serialize (v : var) (with_rc with_vf : bool) : bytes :=
  (if with_rc then le_bytes 4 (v_rc v) else [])
  ++ (if with_vf then [v_flags v] else [])
  ++ fst (put_val (v_val v)) :: snd (put_val (v_val v)).

(** [::memcpy(dst, data + offset, size)]: [data] is the memory behind the pointer given to [deserialize], which
    continues beyond the [length] bytes the caller owns.  Nothing here looks at [length]: only the checks
    written in the code keep the reads inside. *)
Definition memory := nat -> N.
Definition peek (data : memory) (offset size : nat) : bytes := map data (seq offset size).

(** src/vm/var_t.cpp:223-328, the switch reading the value.  [None] is an exception ("unexpected eof", "invalid
    type", or the one from [binary_t::unsafe_alloc], include/mmx/vm/var_t.h:225-228).  Failure of [malloc] is not
    modelled.  [offset + size] does not wrap: both are below 2^33 and [size_t] has 64 bits. *)
Definition uint_size (ty : N) : nat :=
  if ty =? TYPE_UINT16 then 2%nat else if ty =? TYPE_UINT32 then 4%nat
  else if ty =? TYPE_UINT64 then 8%nat else if ty =? TYPE_UINT128 then 16%nat else 32%nat.
Definition get_val (data : memory) (length : nat) (ty : N) (offset : nat) : option (val * nat) :=
  if ty =? 0 then Some (VNil, offset)
  else if ty =? 1 then Some (VFalse, offset)
  else if ty =? 2 then Some (VTrue, offset)
  else if ty =? 3 then
    if (length <? offset + 8)%nat then None
    else Some (VRef (of_le (peek data offset 8)), (offset + 8)%nat)
  else if (ty =? 4) || (ty =? TYPE_UINT16) || (ty =? TYPE_UINT32) || (ty =? TYPE_UINT64)
       || (ty =? TYPE_UINT128) || (ty =? TYPE_UINT256) then
    let size := uint_size ty in
    if (length <? offset + size)%nat then None
    else Some (VUint (of_le (peek data offset size)), (offset + size)%nat)
  else if (ty =? 5) || (ty =? 6) then
    if (length <? offset + 4)%nat then None
    else
      let size := of_le (peek data offset 4) in
      let offset := (offset + 4)%nat in
      if N.of_nat length <? N.of_nat offset + size then None
      else if 2 ^ 32 - 1 <=? size then None
      else
        let n := N.to_nat size in
        Some ((if ty =? 5 then VString else VBinary) (peek data offset n), (offset + n)%nat)
  else if ty =? 7 then
    if (length <? offset + 12)%nat then None
    else Some (VArray (of_le (peek data offset 8)) (of_le (peek data (offset + 8) 4)), (offset + 12)%nat)
  else if ty =? 8 then
    if (length <? offset + 8)%nat then None
    else Some (VMap (of_le (peek data offset 8)), (offset + 8)%nat)
  else None.

(** src/vm/var_t.cpp:202-335 [deserialize]: the value and the number of bytes consumed *)
Definition get_typed (data : memory) (length : nat) (rc flags : N) (offset : nat) : option (var * nat) :=
  if (length <? offset + 1)%nat then None
  else match get_val data length (data offset) (offset + 1) with
       | Some (v, o) => Some ({| v_rc := rc; v_flags := flags; v_val := v |}, o)
       | None => None
       end.
Definition get_flags (data : memory) (length : nat) (rc : N) (with_vf : bool) (offset : nat) : option (var * nat) :=
  if with_vf then
    if (length <? offset + 1)%nat then None
    else get_typed data length rc (data offset) (offset + 1)
  else get_typed data length rc 0 offset.
Definition deserialize (data : memory) (length : nat) (with_rc with_vf : bool) : option (var * nat) :=
  if with_rc then
    if (length <? 0 + 4)%nat then None
    else get_flags data length (of_le (peek data 0 4)) with_vf 4
  else get_flags data length 0 with_vf 0.
