(** Who is paid by a block, in MMX, besides what transactions send *)
Require Import List NArith Bool.
From Verif Require Import BytesLib EngineModel ExecModel StorModel TxModel TxSpec BlockModel.
Import ListNotations.
Open Scope N_scope.
Definition is_paid (o : option addr) (a : addr) : bool := match o with Some x => addr_eqb x a | None => false end.
(** The timelord: a fixed amount *)
Definition timelord_share (P : rules) (b : block) (a : addr) : N := if is_paid (b_vdf_payout b) a then p_vdf_reward P else 0.
(** The farmer: the reward of the block and the larger half of the fees *)
Definition farmer_share (P : rules) (b : block) (a : addr) : N := if is_paid (b_reward_addr b) a then p_reward P + (fees_of (b_txs b) + 1) / 2 else 0.
(** The project: a fixed amount and a part of the fees, but no more than half of the fees *)
Definition project_cut (P : rules) (fees : N) : N := N.min (fees / 2) (p_fixed_project P + fees * p_project_value P / p_project_inverse P).
Definition project_share (P : rules) (b : block) (a : addr) : N := if addr_eqb (b_project b) a then project_cut P (fees_of (b_txs b)) else 0.
(** What transactions that did not fail send *)
Definition sent (b : block) : list txout := flat_map (fun t => block_outputs t (res t)) (b_txs b).
