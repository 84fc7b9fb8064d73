(** What the theorems about blocks talk about *)
Require Import List NArith Bool.
From Verif Require Import BytesLib EngineModel EngineSpec EngineProofs ExecModel StorModel TxModel TxSpec BlockModel.
Import ListNotations.
Open Scope N_scope.

(** What is assumed of the ledger: stored arrays and maps are what the engine wrote ([backend_ok], C54); a call costs something; a contract
    exists only under the id of a transaction of the chain; no public key has the address of an executable contract (both are SHA-256 hashes
    of different things). *)
Record ledger_ok (n : node) (d : sdb) (txs : list tx) : Prop := mk_ledger_ok {
  lo_backend : backend_ok (backend_of (SDb d));
  lo_fee : 0 < n_fee_exec n;
  lo_contracts : forall a, n_contract n a <> None -> n_exists n a = true;
  lo_keys : forall t t' a i, In t txs -> In t' txs -> t_key t a i = Accepted -> executable n t' a = false }.

(** the sum of balances in a currency over a list of addresses; a list of all holders *)
Definition sum_over (L : list addr) (b : balances) (cur : addr) : N := fold_right (fun a s => bal0 b a cur + s) 0 L.
Definition holders (L : list addr) (b : balances) (cur : addr) : Prop := NoDup L /\ forall a, bal0 b a cur <> 0 -> In a L.

(** Chain histories: balances and reported supply after a genesis block, which only gives, and after every valid block on top.  Everything but
    balances and supply may differ from block to block.  Amounts fit into 128 bits.  [Q]: restricts the blocks. *)
Inductive history (Q : rules -> block -> Prop) : balances -> supply -> Prop :=
  | genesis outs : (forall cur, out_sum cur outs < 2 ^ 128) ->
      history Q (apply_balances (fun _ _ => None) [] outs) (apply_supply (fun _ => 0) [] outs)
  | next n P d bl s f : history Q (d_bal d) f -> ledger_ok n d (b_txs bl) -> validate_block n P d bl = Some s -> Q P bl ->
      (forall cur, f cur + out_sum cur (outs_of P bl) < 2 ^ 128) ->
      history Q (apply_balances (d_bal d) (ins_of (b_txs bl)) (outs_of P bl)) (apply_supply f (ins_of (b_txs bl)) (outs_of P bl)).
Definition any_block (P : rules) (b : block) : Prop := True.
(** blocks that pay out at least the fees they take *)
Definition fees_paid_out (P : rules) (b : block) : Prop := fees_of (b_txs b) <= out_sum zero_addr (reward_outs P b).
