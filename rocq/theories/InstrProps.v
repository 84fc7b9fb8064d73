(** C20: packing of contract byte code *)
Require Import List NArith.
From Verif Require Import BytesLib InstrModel InstrSpec InstrProofs.
Import ListNotations.
Open Scope N_scope.

(** Unpacking returns the same instructions and stops exactly at the end of the packed form, whatever follows. *)
Theorem C20_round_trip : forall code rest, Forall instr_ok code -> Forall unused_zero code -> N.of_nat (length code) < 2 ^ 32 ->
  deserialize_code (serialize_code code ++ rest) = Some (code, rest).
Proof. exact code_round_trip_exact. Qed.
Print Assumptions C20_round_trip.
(** Without the condition on unused operands everything but those operands is kept. *)
Theorem C20_used_operands : forall code rest, Forall instr_ok code -> N.of_nat (length code) < 2 ^ 32 ->
  deserialize_code (serialize_code code ++ rest) = Some (map canon code, rest).
Proof. exact code_round_trip. Qed.
Print Assumptions C20_used_operands.

(** ADD, SEND, RET, an unknown code; small, 15-bit and 32-bit operands, repeated and single ones *)
Definition ex_code : list instr :=
  [mk_instr 0x20 5 1 2 4294967295 0; mk_instr 0x20 5 1 2 40000 0; mk_instr 0xC1 0 70000 1 7 8; mk_instr 0x08 0 0 0 0 0;
   mk_instr 0xFF 3 0 0 0 0].
Example C20_ex : Forall instr_ok ex_code /\ Forall unused_zero ex_code /\
  deserialize_code (serialize_code ex_code ++ [9; 9]) = Some (ex_code, [9; 9]).
Proof.
  split; [repeat constructor|]. split; [|vm_compute; reflexivity].
  repeat (constructor; [vm_compute; repeat split; try (intros H; repeat apply le_S_n in H; inversion H); intros; reflexivity|]). constructor.
Qed.
