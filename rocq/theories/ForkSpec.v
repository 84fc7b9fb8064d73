(** What the choice of the peak is supposed to do.  Nothing here refers to how the node keeps its fork tree. *)
Require Import List Arith NArith Bool.
From Verif Require Import OrdLib BytesLib EngineModel ForkModel.
Import ListNotations.
Open Scope N_scope.

(** the blocks of [l] are built one on the other, the first one on [p] *)
Fixpoint follows (p : header) (l : list header) : Prop :=
  match l with [] => True | b :: l => h_prev b = h_hash p /\ h_height b = h_height p + 1 /\ follows b l end.
(** what is known about the blocks: the block, whether its proofs are verified, how many votes were counted for it *)
Definition knowledge : Type := list (header * bool * N).
Definition known (n : node) : knowledge := map (fun f => (f_block f, f_proof f, f_votes f)) (n_forks n).
Definition verified (k : knowledge) (b : header) : Prop := exists v, In (b, true, v) k.
(** a chain on top of [root] that could be followed: every block has verified proofs and is valid *)
Definition candidate (ok : header -> bool) (root : header) (k : knowledge) (l : list header) : Prop :=
  l <> [] /\ follows root l /\ Forall (fun b => verified k b /\ ok b = true) l.
Fixpoint votes_of (k : knowledge) (b : header) : N :=
  match k with [] => 0 | (x, _, v) :: k => if addr_eqb (h_hash x) (h_hash b) then v else votes_of k b end.
Definition total_votes (k : knowledge) (l : list header) : N := fold_right (fun b s => votes_of k b + s) 0 l.
(** more votes; with the same votes, longer; with the same length, the smaller hash *)
Definition beats (root : header) (k : knowledge) (l l' : list header) : Prop :=
  let p := last l root in let p' := last l' root in
  total_votes k l' < total_votes k l \/
  total_votes k l' = total_votes k l /\ (h_height p' < h_height p \/ h_height p' = h_height p /\ bytescmp (h_hash p) (h_hash p') = Lt).
Definition best_chain (ok : header -> bool) (root : header) (k : knowledge) (l : list header) : Prop :=
  candidate ok root k l /\ forall l', candidate ok root k l' -> l' = l \/ beats root k l l'.
(** the sum of all votes that were counted *)
Definition all_votes (k : knowledge) : N := fold_right (fun x s => snd x + s) 0 k.

(** Blocks have different hashes, and none is its own ancestor: [rank] grows along the links.  [U]: all blocks that play a role. *)
Definition no_collision (U : header -> Prop) : Prop := forall a b, U a -> U b -> h_hash a = h_hash b -> a = b.
Definition no_cycle (U : header -> Prop) (rank : bytes -> nat) : Prop := forall b, U b -> (rank (h_prev b) < rank (h_hash b))%nat.
(** What a node can go through while its root stays the same: blocks arrive in any order, whatever they claim about their height, votes arrive, and update() runs with
    whatever was found out in the meantime.  The exception are blocks that claim to follow the root directly and do not: they belong to another root. *)
Section EPOCH.
  Variables (commit_delay max_history : nat) (max_validators : N) (ok : header -> bool) (vote_ok : vote -> bool).
  Variables (U : header -> Prop) (root : header) (older : list header).
  Inductive epoch : node -> Prop :=
  | epoch_start : Forall (fun b => U b /\ h_height b < h_height root) older -> U root -> epoch (mk_node root [] (root :: older) (root :: older) [] [])
  | epoch_block b n : epoch n -> U b -> (h_height b = h_height root + 1 -> h_prev b = h_hash root) -> epoch (add_block b n)
  | epoch_vote best late v n : epoch n -> epoch (handle_vote vote_ok best late v n)
  | epoch_update w n n' : epoch n -> advance commit_delay max_history max_validators ok w n = Some n' -> epoch n'.
End EPOCH.
(** Everything a node can go through, commits of blocks included. *)
Section RUN.
  Variables (commit_delay max_history : nat) (max_validators : N) (ok : header -> bool) (vote_ok : vote -> bool) (U : header -> Prop).
  Inductive run : node -> Prop :=
  | run_start root older : U root -> Forall U older -> run (mk_node root [] (root :: older) (root :: older) [] [])
  | run_block b n : run n -> U b -> run (add_block b n)
  | run_vote best late v n : run n -> run (handle_vote vote_ok best late v n)
  | run_update w n n' : run n -> update commit_delay max_history max_validators ok w n = Some n' -> run n'.
End RUN.
(** [a] is found by going [d] blocks back from [b] *)
Inductive back (U : header -> Prop) : nat -> header -> header -> Prop :=
| back_here b : back U 0 b b
| back_more d b p a : U p -> h_hash p = h_prev b -> back U d p a -> back U (S d) b a.
(** the same blocks with verified proofs, and the same votes for them *)
Definition same_verified (k k' : knowledge) : Prop := forall b v, In (b, true, v) k <-> In (b, true, v) k'.
(** the last blocks before [b], the newest first *)
Fixpoint lineage (n : node) (b : header) (l : list header) : Prop :=
  match l with
  | [] => True
  | x :: l => get_header n (h_prev b) = Some x /\ lineage n x l
  end.
