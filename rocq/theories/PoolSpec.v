(** What the pool has to know *)
Require Import List Arith NArith Bool.
From Verif Require Import BytesLib EngineModel TxModel PoolModel.
Import ListNotations.
Open Scope N_scope.

(** the sum of the fees of all transactions of a sender that are in the pool *)
Definition from (a : addr) (t : tx) : bool := match t_sender t with Some s => addr_eqb s a | None => false end.
Definition fees_from (a : addr) (l : list entry) : N := fold_right (fun e s => (if from a (pe_tx e) then pe_fee e else 0) + s) 0 l.
Definition entries (p : pool) : list entry := map snd (pl_txs p).
(** An id is a hash of what does not change in a transaction, so that transactions with the same id have the same sender, inputs and outputs, see C14. *)
Definition ids_ok (U : tx -> Prop) : Prop :=
  forall t t', U t -> U t' -> t_id t = t_id t' -> t_sender t = t_sender t' /\ t_inputs t = t_inputs t' /\ t_outputs t = t_outputs t'.
(** What is added to the pool is one of the transactions [U]; it has no result.  Fees are 32 bit numbers. *)
Definition op_ok (U : tx -> Prop) (o : pool_op) : Prop :=
  match o with PUpdate e _ _ => U (pe_tx e) /\ t_result (pe_tx e) = None /\ pe_fee e < 2 ^ 32 | PErase _ => True end.
(** a pool after any history, in which it never had more than 2^32 transactions *)
Inductive reached (memo_key : addr -> bytes -> addr) (U : tx -> Prop) : pool -> Prop :=
| reached_empty : reached memo_key U pool_empty
| reached_op o p : reached memo_key U p -> op_ok U o -> N.of_nat (length (pl_txs (pool_do memo_key o p))) <= 2 ^ 32 -> reached memo_key U (pool_do memo_key o p).
(** a transaction concerns an address: it spends from it or sends to it; or an address and a memo *)
Definition concerns (t : tx) (a : addr) : Prop := In a (map ti_address (t_inputs t)) \/ In a (map to_address (t_outputs t)).
Definition has_memo (t : tx) (a : addr) (m : bytes) : Prop := exists o, In o (t_outputs t) /\ to_address o = a /\ to_memo o = Some m.
