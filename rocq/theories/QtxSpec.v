(** The chain, and where a transaction is in it: read off the history alone *)
Require Import List Arith NArith Bool.
From Verif Require Import QtxModel.
Import ListNotations.
Open Scope N_scope.

Definition ids (b : block) : list N := map t_id (k_txs b).
(** The chain after an event: a block is added if it has the next height and no transaction that is there already, or twice *)
Definition next_ok (ch : list block) (b : block) : Prop :=
  k_height b = N.of_nat (length ch) /\ NoDup (ids b) /\ forall t, In t (ids b) -> ~ exists c, In c ch /\ In t (ids c).
Inductive chain : list event -> list block -> Prop :=
| ch_nil : chain [] []
| ch_add l b ch : chain l ch -> next_ok ch b -> chain (l ++ [Apply b]) (ch ++ [b])
| ch_not l b ch : chain l ch -> ~ next_ok ch b -> chain (l ++ [Apply b]) ch
| ch_side l b ch : chain l ch -> chain (l ++ [Side b]) ch
| ch_revert l h ch : chain l ch -> chain (l ++ [Revert h]) (firstn h ch)
| ch_crash l h j ch : chain l ch -> chain (l ++ [Crash h j]) (firstn h ch).

(** The blocks of a history; those that are valid, and no two of them have the same hash *)
Fixpoint blocks (l : list event) : list block := match l with [] => [] | Apply b :: r | Side b :: r => b :: blocks r | _ :: r => blocks r end.
Definition sound (is_valid : block -> list txn -> bool) (l : list event) : Prop :=
  (forall b, In b (blocks l) -> is_valid b (k_txs b) = true) /\ forall a b, In a (blocks l) -> In b (blocks l) -> k_hash a = k_hash b -> a = b.
