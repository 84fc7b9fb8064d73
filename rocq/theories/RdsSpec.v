(** C117: what a contract has stored after the block of a height, from the history alone *)
Require Import List Arith NArith Bool Sorted.
From Verif Require Import BytesLib VarModel VarSpec EngineModel StorModel StorSpec RdsModel.
Import List ListNotations.
Open Scope N_scope.

(** The chain: what the blocks wrote, by height.  Reverting to a height removes the blocks from there. *)
Definition chain := list (list write).
Definition chain_step (ch : chain) (o : op) : chain := match o with Block ws => ch ++ [ws] | Revert n => firstn (N.to_nat n) ch end.
Definition chain_of (l : list op) : chain := fold_left chain_step l [].
(** all writes up to and with the block of a height *)
Definition until (ch : chain) (height : N) : list write := List.concat (firstn (S (N.to_nat height)) ch).

(** the last write to a variable, and to an entry of an array or map *)
Definition last_var (ws : list write) (c : addr) (a : N) (v : svar) : Prop :=
  exists l1 l2, ws = l1 ++ WVar c a v :: l2 /\ forall v', ~ In (WVar c a v') l2.
Definition no_var (ws : list write) (c : addr) (a : N) : Prop := forall v, ~ In (WVar c a v) ws.
Definition last_ent (ws : list write) (c : addr) (a k : N) (v : svar) : Prop :=
  exists l1 l2, ws = l1 ++ WEnt c a k v :: l2 /\ forall v', ~ In (WEnt c a k v') l2.
Definition no_ent (ws : list write) (c : addr) (a k : N) : Prop := forall v, ~ In (WEnt c a k v) ws.

(** contracts among [U], 64-bit addresses, values that the classes can hold, keys neither at 0 *)
Definition write_ok (U : addr -> Prop) (w : write) : Prop :=
  match w with
  | WVar c a v => U c /\ 0 < a < 2 ^ 64 /\ svar_ok v
  | WEnt c a k v => U c /\ a < 2 ^ 64 /\ k < 2 ^ 64 /\ svar_ok v
  end.
Definition history_ok (U : addr -> Prop) (l : list op) : Prop := forall ws w, In (Block ws) l -> In w ws -> write_ok U w.

(** in order of address, each once *)
Definition by_address {A} (l : list (N * A)) : Prop := StronglySorted (fun x y => fst x < fst y) l.
