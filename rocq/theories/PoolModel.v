(** The transactions that wait for a block: /repo/src/Node_update.cpp:535-670, src/Node.cpp:1084, 1309-1322, src/Node_api.cpp:457-490 *)
Require Import List Arith NArith Bool.
From Verif Require Import BytesLib EngineModel TxModel.
Import ListNotations.
Open Scope N_scope.

(** std::unordered_map and std::map, in any order of the elements *)
Definition del {K V} (eqb : K -> K -> bool) (k : K) (l : list (K * V)) : list (K * V) := filter (fun e => negb (eqb k (fst e))) l.
Definition put {K V} (eqb : K -> K -> bool) (k : K) (v : V) (l : list (K * V)) : list (K * V) := (k, v) :: del eqb k l.
Definition emplace {K V} (eqb : K -> K -> bool) (k : K) (v : V) (l : list (K * V)) : list (K * V) :=
  match lfind eqb k l with Some _ => l | None => (k, v) :: l end.
Definition sub64 (a b : N) : N := (a + 2 ^ 64 - b) mod 2 ^ 64.

(** include/mmx/Node.h:282-289.  [is_valid] and [cost] are not used here. *)
Record entry := mk_entry { pe_tx : tx; pe_fee : N; pe_luck : N; pe_skipped : bool }.
(** tx_pool, tx_pool_fees, tx_pool_index: include/mmx/Node.h:518-520 *)
Record pool := mk_pool { pl_txs : list (addr * entry); pl_fees : list (addr * N); pl_index : list ((addr * addr) * tx) }.
Definition pool_empty : pool := mk_pool [] [] [].
Definition pair_eqb (x y : addr * addr) : bool := addr_eqb (fst x) (fst y) && addr_eqb (snd x) (snd y).

Section KEYS.
  (** hash_t(out.address + memo) *)
  Variable memo_key : addr -> bytes -> addr.

  (** src/Transaction.cpp:204-220 *)
  Definition get_inputs (t : tx) : list txin := t_inputs t ++ match t_result t with Some r => rs_inputs r | None => [] end.
  Definition get_outputs (t : tx) : list txout := t_outputs t ++ match t_result t with Some r => rs_outputs r | None => [] end.
  (** the keys under which a transaction is found, src/Node_update.cpp:564-572 *)
  Definition index_keys (t : tx) : list addr :=
    map ti_address (get_inputs t) ++
    flat_map (fun o => to_address o :: match to_memo o with Some m => [memo_key (to_address o) m] | None => [] end) (get_outputs t).
  (** src/Node_update.cpp:535-579.  [None]: an exception.  [balance]: get_balance of the sender. *)
  Definition pool_update (e : entry) (force : bool) (balance : N) (p : pool) : option (pool * bool) :=
    if pe_skipped e then None
    else
      let t := pe_tx e in
      match t_sender t with
      | None => Some (p, false)
      | Some sender =>
        let old := lfind addr_eqb (t_id t) (pl_txs p) in
        let total := match lfind addr_eqb sender (pl_fees p) with Some v => v | None => 0 end in
        let total := match old with Some o => sub64 total (pe_fee o) | None => total end in
        let total := (total + pe_fee e) mod 2 ^ 64 in
        if negb force && (balance <? total) then Some (p, false)
        else Some (mk_pool (put addr_eqb (t_id t) e (pl_txs p)) (put addr_eqb sender total (pl_fees p))
                     (match old with
                      | Some _ => pl_index p
                      | None => fold_left (fun x k => emplace pair_eqb (k, t_id t) t x) (index_keys t) (pl_index p)
                      end), true)
      end.
  (** src/Node_update.cpp:581-608 *)
  Definition pool_erase (id : addr) (p : pool) : pool :=
    match lfind addr_eqb id (pl_txs p) with
    | None => p
    | Some e =>
      let t := pe_tx e in
      mk_pool (del addr_eqb id (pl_txs p))
        (match t_sender t with
         | Some sender =>
           match lfind addr_eqb sender (pl_fees p) with
           | Some v => let v := sub64 v (pe_fee e) in if v =? 0 then del addr_eqb sender (pl_fees p) else put addr_eqb sender v (pl_fees p)
           | None => pl_fees p
           end
         | None => pl_fees p
         end)
        (fold_left (fun x k => del pair_eqb (k, t_id t) x) (index_keys t) (pl_index p))
    end.
  (** src/Node_update.cpp:610-658.  [l]: the entries of the pool, sorted.  [size]: static_cost.  [balance]: get_balance of a sender, converted to 64 bits.
      [fees]: total_fee of sender_map.  The pool and the least fee ratio of those that are kept: [ratio]. *)
  Section PURGE.
    Variable size : tx -> N.
    Variable balance : addr -> N.
    Variable max_size : N.
    Fixpoint purge (l : list entry) (total : N) (fees : addr -> N) (ratio : N) (p : pool) : pool * N :=
      match l with
      | [] => (p, if total <? 9 * max_size / 10 then 0 else ratio)
      | e :: l =>
        let t := pe_tx e in
        let fees := match t_sender t with Some s => fun a => if addr_eqb a s then fees s + pe_fee e else fees a | None => fees end in
        let over := match t_sender t with Some s => balance s mod 2 ^ 64 <? fees s | None => false end in
        let total := if over then total else total + size t in
        if (max_size <? total) || over then purge l total fees ratio (pool_erase (t_id t) p)
        else purge l total fees (t_ratio t) p
      end.
  End PURGE.

  (** what happens to the pool *)
  Inductive pool_op := PUpdate (e : entry) (force : bool) (balance : N) | PErase (id : addr).
  Definition pool_do (o : pool_op) (p : pool) : pool :=
    match o with
    | PUpdate e force balance => match pool_update e force balance p with Some (p, _) => p | None => p end
    | PErase id => pool_erase id p
    end.
  Definition pool_run (l : list pool_op) (p : pool) : pool := fold_left (fun p o => pool_do o p) l p.
  (** src/Node_api.cpp:459-463, 553-557: the transactions that are found under an address, or under an address and a memo *)
  Definition pending (key : addr) (p : pool) : list tx := map snd (filter (fun e => addr_eqb (fst (fst e)) key) (pl_index p)).
  (** src/Node_api.cpp:457-490: the pending entries of [get_history] before they are sorted.  [S]: the elements of [address_set].  An entry is the id of its
      transaction and the input or output it shows. *)
  Inductive pend := PSpend (id : addr) (i : txin) | PReceive (id : addr) (o : txout).
  Definition among (S : list addr) (a : addr) : bool := existsb (addr_eqb a) S.
  Definition show (S : list addr) (t : tx) : list pend :=
    map (PSpend (t_id t)) (filter (fun i => among S (ti_address i)) (get_inputs t)) ++
    map (PReceive (t_id t)) (filter (fun o => among S (to_address o)) (get_outputs t)).
  Definition pending_history (S : list addr) (p : pool) : list pend := flat_map (fun a => flat_map (show S) (pending a p)) S.
End KEYS.
