(** What the node and the wallet tell about balances: /repo/src/Node_api.cpp:677-780, src/Wallet.cpp:637-760, include/mmx/table.h:182-203.
    Addresses are numbers: 32 bytes compared from the first on (include/mmx/bytes_t.hpp:184-186), so the order is the one of the numbers they spell; the native currency is 0.
    Amounts are 128 bit and wrap around (uint128_t::operator+=). *)
Require Import List Arith NArith ZArith Bool.
From Verif Require Import OrdLib WalletModel.
Import ListNotations.
Open Scope N_scope.

(** balance_table_t: include/mmx/table.h:494-515, rows in the order of their keys (C07).  A row is never taken out again when a balance drops to zero: src/Node.cpp:1101-1103 *)
Definition kcmp : key -> key -> comparison := lexcmp N.compare N.compare.
Definition table := list (key * N).
Definition table_find (t : table) (k : key) : option N := aget kcmp k t.
(** src/Node.cpp:1101-1103: one entry of balance_cache is written *)
Definition table_insert (t : table) (w : key * N) : table := aset kcmp (fst w) (snd w) t.
(** addr_t::ones() *)
Definition ones : N := 2 ^ 256 - 1.

(** table.h:182-203: rows from [lo] on, below [hi], no more than [limit]; rows whose value does not decode are not modelled *)
Fixpoint rows_until (hi : key) (limit : N) (l : table) : table :=
  match l with
  | [] => []
  | (k, v) :: l =>
    if limit =? 0 then []
    else match kcmp k hi with Lt => (k, v) :: rows_until hi (N.pred limit) l | _ => [] end
  end.
Fixpoint seek (lo : key) (l : table) : table :=
  match l with [] => [] | (k, v) :: l' => match kcmp k lo with Lt => seek lo l' | _ => l end end.
Definition find_range (lo hi : key) (limit : N) (t : table) : table := rows_until hi limit (seek lo t).
(** int32_t to size_t *)
Definition size_of (limit : Z) : N := Z.to_N (limit mod 2 ^ 64)%Z.

(** std::set<addr_t>(begin, end) *)
Fixpoint set_insert (a : N) (s : list N) : list N :=
  match s with [] => [a] | b :: s' => if a <? b then a :: s else if b <? a then b :: set_insert a s' else s end.
Definition set_of (l : list N) : list N := fold_left (fun s a => set_insert a s) l [].

(** Node_api.cpp:677-682 *)
Definition get_balance (t : table) (address currency : N) : N := match table_find t (address, currency) with Some v => v | None => 0 end.
(** 684-691 *)
Definition get_total_balance (t : table) (addresses : list N) (currency : N) : N :=
  fold_left (fun total a => add128 total (get_balance t a currency)) (set_of addresses) 0.
(** 731-739, 757-765: what is read for one address.  [whitelist]: a std::set *)
Definition read_rows (t : table) (whitelist : list N) (limit : Z) (address : N) : list (key * N) :=
  match whitelist with
  | [] => find_range (address, 0) (address, ones) (size_of limit) t
  | _ => map (fun c => ((address, c), get_balance t address c)) whitelist
  end.
(** 725-750 *)
Definition get_total_balances (t : table) (addresses : list N) (whitelist : list N) (limit : Z) : list (N * N) :=
  fold_left (fun totals r => if snd r =? 0 then totals else addm totals (snd (fst r)) (snd r))
    (flat_map (read_rows t whitelist limit) (set_of addresses)) [].
(** 752-777 *)
Definition get_all_balances (t : table) (addresses : list N) (whitelist : list N) (limit : Z) : list (key * N) :=
  fold_left (fun totals r => if snd r =? 0 then totals else setb totals (fst r) (add128 (bal totals (fst r)) (snd r)))
    (flat_map (read_rows t whitelist limit) (set_of addresses)) [].
(** 693-696 *)
Definition get_balances (t : table) (address : N) (whitelist : list N) (limit : Z) : list (N * N) := get_total_balances t [address] whitelist limit.

(** interface/balance_t.vni *)
Record balance := mk_balance { spendable : N; reserved : N; locked : N; b_total : N; validated : bool }.
Definition no_balance := mk_balance 0 0 0 0 false.
(** 698-723; [is_locked]: what the method of that name answers, false if the contract has none *)
Definition get_contract_balances (t : table) (is_locked : bool) (address : N) (whitelist : list N) (limit : Z) : list (N * balance) :=
  map (fun e => (fst e, mk_balance (if is_locked then 0 else snd e) 0 (if is_locked then snd e else 0) (snd e) (match whitelist with [] => false | _ => true end)))
    (get_total_balances t [address] whitelist limit).

(** src/Wallet.cpp:652-660: external_balance_map.  [contracts]: get_contracts_owned_by; [liquidity]: get_swap_liquidity_by, flattened *)
Definition external (t : table) (contracts whitelist : list N) (limit : Z) (liquidity : list (N * N)) : list (N * N) :=
  fold_left (fun m e => addm m (fst e) (snd e)) liquidity
    (fold_left (fun m e => addm m (fst e) (snd e)) (get_total_balances t contracts whitelist limit) []).

(** operator[] of a map of balances *)
Definition b_at (m : list (N * balance)) (c : N) : balance := match get N.eqb m c with Some b => b | None => no_balance end.
Definition b_set (m : list (N * balance)) (c : N) (b : balance) : list (N * balance) := put N.eqb N.ltb m c b.
Definition add_spendable (m : list (N * balance)) (c v : N) := let b := b_at m c in b_set m c (mk_balance (add128 (spendable b) v) (reserved b) (locked b) (b_total b) (validated b)).
Definition add_reserved (m : list (N * balance)) (c v : N) := let b := b_at m c in b_set m c (mk_balance (spendable b) (add128 (reserved b) v) (locked b) (b_total b) (validated b)).
Definition add_locked (m : list (N * balance)) (c v : N) := let b := b_at m c in b_set m c (mk_balance (spendable b) (reserved b) (add128 (locked b) v) (b_total b) (validated b)).
(** src/Wallet.cpp:714-745, behind update_cache; [ext]: external_balance_map; [whitelist]: token_whitelist, a std::set *)
Definition wallet_balances (w : cache) (ext : list (N * N)) (whitelist : list N) (with_zero : bool) : list (N * balance) :=
  let m := if with_zero then fold_left (fun m c => b_set m c no_balance) whitelist [] else [] in
  let m := fold_left (fun m e => add_spendable m (snd (fst e)) (snd e)) (c_balance w) m in
  let m := fold_left (fun m e => add_reserved m (snd (fst e)) (snd e)) (c_reserved w) m in
  let m := fold_left (fun m p => fold_left (fun m e => add_reserved m (snd (fst e)) (snd e)) (snd p) m) (c_pending w) m in
  let m := fold_left (fun m e => add_locked m (fst e) (snd e)) ext m in
  map (fun e => let b := snd e in
    (fst e, mk_balance (spendable b) (reserved b) (locked b) (add128 (add128 (spendable b) (reserved b)) (locked b)) (existsb (N.eqb (fst e)) whitelist))) m.
(** 703-712 *)
Definition wallet_balance (w : cache) (ext : list (N * N)) (whitelist : list N) (currency : N) : balance :=
  match get N.eqb (wallet_balances w ext whitelist false) currency with Some b => b | None => no_balance end.
