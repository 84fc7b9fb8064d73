(** Which swaps there are *)
Require Import List Arith NArith Bool.
From Verif Require Import SwlModel.
Import ListNotations.
Open Scope N_scope.
(** The chain after a history, the oldest block first *)
Definition chain_of (l : list op) : list block :=
  fold_left (fun c o => match o with Apply b => c ++ [b] | Revert h => firstn (N.to_nat h) c end) l [].
(** A swap that a user asks for *)
Definition wanted (token currency : option N) (d : deploy) : bool :=
  match d with
  | Swap t c => match token with Some x => t =? x | None => true end && match currency with Some x => c =? x | None => true end
  | _ => false
  end.
(** All that are wanted in the blocks from height [since], in the order of the chain *)
Definition swaps_in (c : list block) (since : N) (token currency : option N) : list N :=
  map fst (filter (fun e => wanted token currency (snd e)) (concat (skipn (N.to_nat since) c))).
(** Places in the chain: by height, then by number in the block *)
Definition before (a b : N * N) : Prop := fst a < fst b \/ (fst a = fst b /\ snd a < snd b).
