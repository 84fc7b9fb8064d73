(** The tables of deployed contracts, of their owners and of executed operations, and what the node tells from them:
    /repo/src/Node.cpp:1035-1103 and 1164-1235, src/Node_api.cpp:647-675 and 776-786.  Reverting is C08: the tables are those of the shorter chain. *)
Require Import List Arith NArith ZArith Bool.
From Verif Require Import BytesLib OrdLib EngineModel HistModel OfqModel.
Import List ListNotations.
Open Scope N_scope.

(** Contracts: contract::PubKey has an owner (src/contract/PubKey.cpp:42-45), contract::Executable has a binary and arguments, here already converted to addresses;
    [OtherContract]: contract::Binary and the rest, by the hash of the name of the type *)
Inductive contract := PubKey (address : addr) | Executable (binary : addr) (args : list addr) | OtherContract (type_hash : addr).
(** exec_entry_t without the time: height, transaction, method, arguments (encoded), user, deposit *)
Record call := mk_call { l_height : N; l_txid : addr; l_method : bytes; l_args : bytes; l_user : option addr; l_deposit : option (addr * N) }.
(** an operation; [o_exec]: operation::Execute or Deposit; [o_address] empty: the contract that the transaction deploys (addr_t()) *)
Record op := mk_op { o_address : option addr; o_exec : bool; o_method : bytes; o_args : bytes; o_user : option addr; o_deposit : option (addr * N) }.
(** [t_failed]: exec_result->did_fail *)
Record tx := mk_tx { t_id : addr; t_sender : option addr; t_failed : bool; t_deploy : option contract; t_execute : list op }.
(** [b_io]: the number of inputs and outputs of the block, which also take numbers *)
Record block := mk_block { b_height : N; b_io : N; b_txs : list tx }.

(** Node.h:500-507 *)
Record tables := mk_tables { deploy_map : list (key * (addr * addr)); owner_map : list (key * (addr * addr)); exec_log : list (key * call) }.
Definition empty : tables := mk_tables [] [] [].

Section NODE.
  (** params: plot_nft_binary, offer_binary, time_lock_binary, escrow_binary; [pubkey_hash]: hash of the name of contract::PubKey *)
  Variables (plot_nft offer time_lock escrow pubkey_hash : addr).
  (** addr_t() *)
  Variable zero_addr : addr.

  (** contract/Executable.cpp:86-92, converted *)
  Definition get_arg (args : list addr) (i : nat) : addr := nth i args zero_addr.
  (** Node.cpp:1171, 1175 *)
  Definition type_of (c : contract) : addr := match c with PubKey _ => pubkey_hash | Executable b _ => b | OtherContract h => h end.
  (** Node.cpp:1194-1204 *)
  Definition arg_owner (c : contract) : option addr :=
    match c with
    | Executable b args =>
      if addr_eqb b plot_nft || addr_eqb b offer || addr_eqb b time_lock then Some (get_arg args 0)
      else if addr_eqb b escrow then Some (get_arg args 2) else None
    | _ => None
    end.
  (** contract->get_owner() *)
  Definition get_owner (c : contract) : option addr := match c with PubKey a => Some a | _ => None end.
  Definition next (counter : N) : N := (counter + 1) mod 2 ^ 32.
  Definition put_row {V} (a : option addr) (height ticket : N) (v : V) (m : list (key * V)) : list (key * V) :=
    match a with Some a => aset key_cmp ((a, height), ticket) v m | None => m end.
  (** Node.cpp:1168-1222, without contract_map, contract_log and the indices of offers and swaps (C105, C109) *)
  Definition apply_deploy (height : N) (t : tx) (st : tables * N) : tables * N :=
    match t_deploy t with
    | None => st
    | Some c =>
      let (s, ticket) := st in
      let row := (t_id t, type_of c) in
      (mk_tables (put_row (t_sender t) height ticket row (deploy_map s))
                 (put_row (get_owner c) height ticket row (put_row (arg_owner c) height ticket row (owner_map s))) (exec_log s), next ticket)
    end.
  (** Node.cpp:1223-1242 *)
  Definition apply_op (height : N) (t : tx) (st : tables * N) (o : op) : tables * N :=
    let (s, ticket) := st in
    let address := match o_address o with Some a => a | None => t_id t end in
    (if o_exec o then mk_tables (deploy_map s) (owner_map s) (put_row (Some address) height ticket (mk_call height (t_id t) (o_method o) (o_args o) (o_user o) (o_deposit o)) (exec_log s)) else s,
     next ticket).
  (** Node.cpp:1164-1287 *)
  Definition apply_tx (height : N) (st : tables * N) (t : tx) : tables * N := fold_left (apply_op height t) (t_execute t) (apply_deploy height t st).
  (** Node.cpp:1035-1090: numbers are taken by the outputs and inputs first; transactions that failed are left out *)
  Definition apply_block (s : tables) (b : block) : tables :=
    fst (fold_left (apply_tx (b_height b)) (filter (fun t => negb (t_failed t)) (b_txs b)) (s, b_io b mod 2 ^ 32)).
  Definition replay (chain : list block) : tables := fold_left apply_block chain empty.

  Definition of_table (m : list (key * (addr * addr))) (addresses : list addr) (type_hash : option addr) : list addr :=
    flat_map (fun a => map fst (filter (fun e => match type_hash with None => true | Some h => addr_eqb (snd e) h end)
                         (map snd (first_range ((a, 0), 0) ((a, top), top) m)))) addresses.
  (** Node_api.cpp:647-660 *)
  Definition get_contracts_by (s : tables) := of_table (deploy_map s).
  (** Node_api.cpp:662-675 *)
  Definition get_contracts_owned_by (s : tables) := of_table (owner_map s).
  (** Node_api.cpp:776-786 *)
  Definition get_exec_history (s : tables) (address : addr) (limit : Z) (recent : bool) : list call :=
    take (size limit) (map snd (if recent then last_range ((address, 0), 0) ((address, top), top) (exec_log s) else first_range ((address, 0), 0) ((address, top), top) (exec_log s))).
End NODE.
