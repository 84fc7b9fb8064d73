(** What voting and making blocks are supposed to do, in terms of what a node publishes. *)
Require Import List Arith NArith ZArith Bool Sorting.Sorted.
From Verif Require Import OrdLib BytesLib EngineModel ForkModel FarmModel.
Import List ListNotations.

(** [earlier x y l]: in a list with the newest first, [x] comes before [y] in time *)
Definition earlier {A} (x y : A) (l : list A) : Prop := exists l1 l2 l3, l = l1 ++ y :: l2 ++ x :: l3.
(** votes for two blocks with the same parent are more than [gap] milliseconds apart *)
Definition siblings_apart (gap : Z) (l : list ballot) : Prop :=
  forall a b, earlier a b l -> c_parent a = c_parent b -> c_block a <> c_block b -> (gap < c_time b - c_time a)%Z.
(** the same for two blocks at the same height *)
Definition heights_apart (gap : Z) (l : list ballot) : Prop :=
  forall a b, earlier a b l -> c_height a = c_height b -> c_block a <> c_block b -> (gap < c_time b - c_time a)%Z.

Definition hash_lt (a b : bytes) : Prop := bytescmp a b = Lt.
(** the vote is for a block that is made from a proof the node knows, and it knows no better one for the same challenge *)
Definition for_best (b : ballot) : Prop := In (c_proof b) (c_known b) /\ forall h, In h (c_known b) -> h = c_proof b \/ hash_lt (c_proof b) h.
(** the vote replaces an earlier one for another block with the same parent *)
Definition replaces_vote (b : ballot) (l : list ballot) : Prop := exists a, earlier a b l /\ c_parent a = c_parent b /\ c_block a <> c_block b.

(** no two blocks are made from the same proof *)
Definition one_block_per_proof (l : list draft) : Prop := NoDup (map m_proof_hash l).
(** the block is made from proofs for its challenge which the node knows, in order, the first one gives the hash; there are as many as may be, and those that were
    left out are worse *)
Definition best_proofs (hash : proof -> bytes) (max : nat) (m : draft) : Prop :=
  Forall (fun p => p_challenge p = m_challenge m) (m_proof m) /\
  incl (map hash (m_proof m)) (m_known m) /\ StronglySorted hash_lt (map hash (m_proof m)) /\ hd_error (map hash (m_proof m)) = Some (m_proof_hash m) /\
  length (m_proof m) = Nat.min max (length (m_known m)) /\
  (forall h, In h (m_known m) -> ~ In h (map hash (m_proof m)) -> Forall (fun p => hash_lt (hash p) h) (m_proof m)).
