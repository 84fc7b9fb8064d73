(** What "unless somebody found a hash collision" means: two different byte strings with the same hash, one of them hashed
    while computing the root of the first list and the other while computing the root of the second. *)
Require Import List Arith NArith.
From Verif Require Import BytesLib.
Import ListNotations.

Section TREE_INPUTS.
  Variable sha : bytes -> bytes.

  (** the strings hashed to get from one level of the tree to the next: neighbours, concatenated *)
  Fixpoint pairs (l : list bytes) : list bytes :=
    match l with a :: b :: l' => (a ++ b) :: pairs l' | _ => [] end.
  (** the next level: the hashes of the neighbours, and the odd one out unchanged *)
  Definition level_up (l : list bytes) : list bytes :=
    map sha (pairs l) ++ (if Nat.even (length l) then [] else [last l []]).
  (** every string hashed in the levels above the leaves [l]; [n] levels suffice for [n] leaves *)
  Fixpoint tree_inputs (n : nat) (l : list bytes) : list bytes :=
    match n with O => [] | S k => pairs l ++ tree_inputs k (level_up l) end.
  Definition hashed {TX : Type} (ser : TX -> bytes) (txs : list TX) : list bytes :=
    map ser txs ++ tree_inputs (length txs) (map (fun tx => sha (ser tx)) txs).
  Definition collision_between (l1 l2 : list bytes) : Prop :=
    exists x y, In x l1 /\ In y l2 /\ x <> y /\ sha x = sha y.
End TREE_INPUTS.
