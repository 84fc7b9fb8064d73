(** What the tables of a node should be: those of its main chain, whatever happened before. *)
Require Import List Arith NArith Bool.
Import ListNotations.
From Verif Require Import DbSpec ReorgModel.
Open Scope N_scope.

Section SPEC.
  Context {K V C : Type} (K_eqb : K -> K -> bool).
  Variable valid : view K V -> block -> option C.
  Variable effects : view K V -> block -> option C -> list (K * V).
  Variable genesis : block.

  (** A chain is a list of blocks, the newest first.  The tables one gets by applying it to empty tables: *)
  Fixpoint scratch (ch : list block) : db K V :=
    match ch with
    | [] => db0 K V
    | b :: ch => apply_db K V C K_eqb effects b (match ch with [] => None | _ => valid (the_view K V K_eqb (scratch ch)) b end) (scratch ch)
    end.

  (** It starts with the genesis block, and every further block names the one before, has the next height and is valid on the tables of those before it. *)
  Fixpoint chain (ch : list block) : Prop :=
    match ch with
    | [] => True
    | b :: ch' =>
      match ch' with
      | [] => b = genesis
      | p :: _ => b_prev b = b_hash p /\ b_height b = b_height p + 1 /\ valid (the_view K V K_eqb (scratch ch')) b <> None
      end /\ chain ch'
    end.

  Definition top_hash (ch : list block) : N := match ch with [] => 0 | b :: _ => b_hash b end.
  (** how many blocks farmer [k] made *)
  Fixpoint blocks_by (k : N) (ch : list block) : N :=
    match ch with [] => 0 | b :: ch => (if negb (b_height b =? 0) && (b_farmer b =? k) then 1 else 0) + blocks_by k ch end.
End SPEC.

(** the entry of a farmer in the ranking *)
Fixpoint rank_of (k : N) (l : list (N * N)) : N := match l with [] => 0 | (a, c) :: l => if a =? k then c else rank_of k l end.

(** The blocks that exist: no two have the same hash, none the hash zero, and none is so high that the version numbers of the tables end. *)
Definition good_blocks (U : block -> Prop) (genesis : block) : Prop :=
  (forall a b, U a -> U b -> b_hash a = b_hash b -> a = b) /\
  (forall a, U a -> b_hash a <> 0) /\
  (forall a, U a -> b_height a + 1 < 4294967295) /\
  U genesis /\ b_height genesis = 0 /\ b_prev genesis = 0.
(** only such blocks arrive *)
Definition arrive (U : block -> Prop) (l : list op) : Prop := Forall (fun o => match o with Add b => U b | _ => True end) l.

(** the blocks of [l], the oldest first, follow one another and the first follows the block with hash [h] *)
Fixpoint follows (h : N) (l : list block) : Prop := match l with [] => True | b :: l => b_prev b = h /\ follows (b_hash b) l end.
(** no block lies about its height *)
Definition honest (U : block -> Prop) : Prop := forall a b, U a -> U b -> b_prev a = b_hash b -> b_height a = b_height b + 1.
(** the root of the node is on its main chain *)
Definition rooted {K V C} (n : node K V C) (r : block) : Prop := n_root _ _ _ n = Some r /\ hash_at K V (n_db _ _ _ n) (b_height r) = Some (b_hash r).
(** the node knows blocks that lead from the block [r] to the block with hash [h] *)
Definition leads {K V C} (n : node K V C) (r : block) (h : N) : Prop :=
  exists l b, b_hash b = h /\ follows (b_hash r) (l ++ [b]) /\ Forall (fun b => In b (map (f_block C) (n_forks _ _ _ n))) (l ++ [b]).
