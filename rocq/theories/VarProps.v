(** C11 - C13: VM values survive storage, decoding stays in bounds, and the ordering is total. *)
Require Import List Arith NArith ZArith Lia Bool.
From Verif Require Import BytesLib VarModel VarSpec VarProofs.
Import ListNotations.
Open Scope N_scope.

(** C11: what [serialize] wrote is read back, and exactly those bytes are consumed, whatever follows. *)
Theorem C11_round_trip : forall v with_rc with_vf rest junk, var_ok v ->
  let b := serialize v with_rc with_vf in
  deserialize (buffer (b ++ rest) junk) (length (b ++ rest)) with_rc with_vf
  = Some (stored_part v with_rc with_vf, length b).
Proof. intros. now apply round_trip. Qed.
Print Assumptions C11_round_trip.

(** C11: an integer takes the shortest of the widths 2, 4, 8, 16, 32 that holds it. *)
Theorem C11_shortest_width : forall v x (with_rc with_vf : bool), v_val v = VUint x -> x < 2 ^ 256 ->
  exists w, shortest x w /\
  length (serialize v with_rc with_vf) = ((if with_rc then 4 else 0) + (if with_vf then 1 else 0) + 1 + w)%nat.
Proof. exact uint_width. Qed.
Print Assumptions C11_shortest_width.

(** no two values share an encoding *)
Theorem C11_injective : forall v w with_rc with_vf, var_ok v -> var_ok w ->
  serialize v with_rc with_vf = serialize w with_rc with_vf ->
  stored_part v with_rc with_vf = stored_part w with_rc with_vf.
Proof.
  intros v w rc vf Hv Hw E. pose proof (round_trip v rc vf [] (fun _ => 0) Hv) as A.
  rewrite E, (round_trip w rc vf [] (fun _ => 0) Hw) in A. congruence.
Qed.
Print Assumptions C11_injective.

Example C11_ex :
  let v := {| v_rc := 3; v_flags := 5; v_val := VUint (2 ^ 64) |} in
  let s := {| v_rc := 1; v_flags := 2; v_val := VString [104; 105] |} in
  var_ok v /\ var_ok s /\
  serialize v true true = [3; 0; 0; 0; 5; 12; 0; 0; 0; 0; 0; 0; 0; 0; 1; 0; 0; 0; 0; 0; 0; 0] /\
  serialize s false true = [2; 5; 2; 0; 0; 0; 104; 105] /\
  deserialize (buffer [2; 5; 2; 0; 0; 0; 104; 105; 77] (fun _ => 9)) 9 false true
   = Some ({| v_rc := 0; v_flags := 2; v_val := VString [104; 105] |}, 8%nat).
Proof.
  cbv zeta. split; [|split; [|split; [|split]]]; try (vm_compute; reflexivity).
  - repeat split; reflexivity.
  - split; [reflexivity|split; [reflexivity|split; [|reflexivity]]]. repeat constructor.
Qed.

(** C12: on any memory content and any length, decoding looks at no byte outside the given ones (it gives the same
    result on every memory which agrees on them) and reports to have consumed no more than those. *)
Theorem C12_in_bounds : forall (data other : memory) len with_rc with_vf,
  (forall i, (i < len)%nat -> data i = other i) ->
  deserialize data len with_rc with_vf = deserialize other len with_rc with_vf /\
  (forall v n, deserialize data len with_rc with_vf = Some (v, n) -> (0 < n <= len)%nat).
Proof. exact deserialize_bounds. Qed.
Print Assumptions C12_in_bounds.

(** what is decoded from arbitrary bytes is always a well-formed value *)
Theorem C12_well_formed : forall data len with_rc with_vf v n, (forall i, data i < 256) ->
  deserialize data len with_rc with_vf = Some (v, n) -> var_ok v.
Proof. exact deserialize_ok. Qed.
Print Assumptions C12_well_formed.

Example C12_ex :
  deserialize (buffer [5; 3; 0; 0; 0; 65; 66] (fun _ => 67)) 7 false false = None /\
  deserialize (buffer [5; 3; 0; 0; 0; 65; 66] (fun _ => 67)) 8 false false
    = Some ({| v_rc := 0; v_flags := 0; v_val := VString [65; 66; 67] |}, 8%nat).
Proof. split; vm_compute; reflexivity. Qed.

(** C13: the comparison of values (and of pointers to values, null first) is antisymmetric, transitive and total;
    it answers 0 exactly for the same value, where arrays are identified by their address. *)
Theorem C13_total_order_partial :
  (forall a b, compare b a = (- compare a b)%Z) /\
  (forall a b c, (compare a b <= 0)%Z -> (compare b c <= 0)%Z -> (compare a c <= 0)%Z) /\
  (forall a b, compare a b = 0%Z <-> same_value a b).
Proof. exact (conj compare_opp (conj compare_trans compare_eq)). Qed.
Print Assumptions C13_total_order_partial.

Theorem C13_pointers_partial :
  (forall a b, compare_ptr b a = (- compare_ptr a b)%Z) /\
  (forall a b c, (compare_ptr a b <= 0)%Z -> (compare_ptr b c <= 0)%Z -> (compare_ptr a c <= 0)%Z) /\
  (forall a b, compare_ptr a b = 0%Z <-> same_ptr a b).
Proof. exact compare_ptr_order. Qed.
Print Assumptions C13_pointers_partial.

(** C13 as claimed fails in one case: two arrays with one address and different sizes compare equal. *)
Theorem C13_refuted : exists a b, val_ok a /\ val_ok b /\ a <> b /\ compare a b = 0%Z.
Proof.
  exists (VArray 4294967296 1), (VArray 4294967296 2). repeat split; try reflexivity. discriminate.
Qed.
Print Assumptions C13_refuted.

Example C13_ex : compare (VString [1; 2]) (VString [1; 3]) = (-1)%Z /\ compare (VUint 7) (VString []) = (-1)%Z /\
  compare (VBinary [255]) (VBinary [1; 1]) = (-1)%Z /\ compare_ptr None (Some VNil) = (-1)%Z.
Proof. repeat split; reflexivity. Qed.
