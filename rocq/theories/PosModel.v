(** Plot park encodings: src/pos/encoding.cpp and include/mmx/pos/encoding.h. Bit streams are lists of 64-bit words. *)
Require Import List Arith NArith Bool.
Import ListNotations.
Open Scope N_scope.

(** src/pos/encoding.cpp:14-30; (code, number of bits); [None]: "symbol out of range".
    For symbols 3 and up the shift distance 32 - 2 * index is at least 2, so the 32-bit shift is well defined. *)
Definition encode_symbol (sym : N) : option (N * N) :=
  if sym <? 3 then Some (sym, 2)
  else
    let index := sym / 3 in
    let md := sym mod 3 in
    if 15 <? index then None
    else
      let out := N.shiftr (2 ^ 32 - 1) (32 - 2 * index) in
      Some (N.lor out (N.shiftl md (2 * index) mod 2 ^ 32), 2 * index + 2).

(** src/pos/encoding.cpp:40-50: the loop; [n] iterations are left, [index] is the loop counter *)
Fixpoint decode_loop_sym (n : nat) (index shift : N) : N * N :=
  match n with
  | O => (48, 32)
  | S k =>
    let md := N.land shift 3 in
    if md =? 3 then decode_loop_sym k (index + 1) (N.shiftr shift 2)
    else (3 * index + md, 2 * index + 2)
  end.
(** src/pos/encoding.cpp:32-52; the argument is truncated to 32 bits by the call *)
Definition decode_symbol (bits : N) : N * N :=
  let bits := bits mod 2 ^ 32 in
  if N.land bits 3 <? 3 then (N.land bits 3, 2) else decode_loop_sym 16 0 bits.

(** src/pos/encoding.cpp:54-83; the words that are still pushed, from the state (offset, buffer) on; [None]: exception *)
Fixpoint encode_loop (symbols : list N) (offset buffer : N) : option (list N) :=
  match symbols with
  | [] => Some (if offset =? 0 then [] else [buffer])
  | sym :: rest =>
    match encode_symbol sym with
    | None => None
    | Some (code, nbits) =>
      let buffer := N.lor buffer (N.shiftl code offset mod 2 ^ 64) in
      let fin := offset + nbits in
      let pushed := if 64 <=? fin then [buffer] else [] in
      let buffer := if 64 <=? fin then 0 else buffer in
      let buffer := if 64 <? fin then N.shiftr code (64 - offset) else buffer in
      match encode_loop rest (fin mod 64) buffer with
      | None => None
      | Some out => Some (pushed ++ out)
      end
    end
  end.
Definition encode (symbols : list N) : option (list N) := encode_loop symbols 0 0.

(** src/pos/encoding.cpp:85-116; [n] symbols are left to decode; [None]: exception *)
Fixpoint decode_loop (ws : list N) (n : nat) (offset bits buffer : N) : option (list N) :=
  match n with
  | O => Some []
  | S k =>
    let step offset bits buffer :=
      let '(sym, len) := decode_symbol buffer in
      if bits <? len then None
      else match decode_loop ws k offset (bits - len) (N.shiftr buffer len) with
           | None => None
           | Some out => Some (sym :: out)
           end in
    if bits <? 32 then
      match nth_error ws (N.to_nat (offset / 64)) with
      | Some w =>
        let count := N.min (64 - offset mod 64) (64 - bits) in
        step (offset + count) (bits + count) (N.lor buffer (N.shiftl (N.shiftr w (offset mod 64)) bits mod 2 ^ 64))
      | None => if bits =? 0 then None else step offset bits buffer
      end
    else step offset bits buffer
  end.
Definition decode (ws : list N) (n : nat) (bit_offset : N) : option (list N) := decode_loop ws n bit_offset 0 0.

(** *** Line points *)

(** include/mmx/pos/encoding.h:25-36; uint32_t x - 1 wraps, the product is 64 bit *)
Definition GetXEnc (x : N) : N :=
  let a := x in
  let b := (x + 2 ^ 32 - 1) mod 2 ^ 32 in
  if a mod 2 =? 0 then (a / 2 * b) mod 2 ^ 64 else (a * (b / 2)) mod 2 ^ 64.

(** include/mmx/pos/encoding.h:41-46; [n] bits are left *)
Fixpoint square_loop (n : nat) (index x : N) : N :=
  match n with
  | O => x
  | S i =>
    let new_x := (x + 2 ^ N.of_nat i) mod 2 ^ 32 in
    square_loop i index (if GetXEnc new_x <=? index then new_x else x)
  end.
(** include/mmx/pos/encoding.h:38-48 *)
Definition LinePointToSquare (index : N) : N * N :=
  let x := square_loop 32 index 0 in
  (x, (index + 2 ^ 64 - GetXEnc x) mod 2 ^ 32).

(** include/mmx/pos/encoding.h:51-61 *)
Definition LinePointToSquare3 (index : N) : N * N :=
  let '(x, y) := LinePointToSquare index in
  if y =? 0 then let x := (x + 2 ^ 32 - 1) mod 2 ^ 32 in (x, x) else (x, y).
(** include/mmx/pos/encoding.h:64-70 *)
Definition LinePointToSquare2 (index : N) : N * N :=
  let '(x, y) := LinePointToSquare3 index in
  ((x + 2 ^ 32 - 1) mod 2 ^ 32, (y + 2 ^ 32 - 1) mod 2 ^ 32).
