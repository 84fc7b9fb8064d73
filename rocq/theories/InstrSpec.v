(** Well-formed instructions: every field fits its C++ type. *)
Require Import List Arith NArith.
From Verif Require Import InstrModel.
Open Scope N_scope.

Record instr_ok (i : instr) : Prop := {
  io_code : i_code i < 2 ^ 8; io_flags : i_flags i < 2 ^ 8;
  io_a : i_a i < 2 ^ 32; io_b : i_b i < 2 ^ 32; io_c : i_c i < 2 ^ 32; io_d : i_d i < 2 ^ 32 }.

(** what the packed form keeps of an instruction: operands that its code does not use become zero *)
Definition canon (i : instr) : instr :=
  let n := op_nargs (i_code i) in
  mk_instr (i_code i) (i_flags i) (if (1 <=? n)%nat then i_a i else 0) (if (2 <=? n)%nat then i_b i else 0)
    (if (3 <=? n)%nat then i_c i else 0) (if (4 <=? n)%nat then i_d i else 0).

(** operands that the code of the instruction does not use are zero, as the compiler leaves them *)
Definition unused_zero (i : instr) : Prop :=
  let n := op_nargs (i_code i) in
  ((n < 1)%nat -> i_a i = 0) /\ ((n < 2)%nat -> i_b i = 0) /\ ((n < 3)%nat -> i_c i = 0) /\ ((n < 4)%nat -> i_d i = 0).
