(** Validation of a block's transactions, applying a block, and choosing the transactions of a new block:
    /repo/src/Node_validate.cpp:68-105, 107-370, src/Node.cpp:1029-1117, src/Block.cpp:18-140, src/Node_update.cpp:775-925.
    Transactions are validated one after the other in the order of the block; ParModel.v relates this to the parallel validation of the code.
    Sums of costs and fees over a block are not wrapped: every cost and fee of a transaction that passes is below 2^32. *)
Require Import List Arith NArith ZArith Bool.
From Verif Require Import BytesLib OrdLib VarModel InstrModel EngineModel ExecModel StorModel TxModel.
Import ListNotations.
Open Scope N_scope.

(** ChainParams and what Node::calc_block_reward (src/Node.cpp:1779-1796) takes from the previous block: [p_reward] is the block reward
    without fees. *)
Record rules := mk_rules { p_max_size : N; p_max_cost : N; p_bands : list N; p_vdf_reward : N;
                           p_fixed_project : N; p_project_value : N; p_project_inverse : N; p_reward : N }.
(** the fields of interface/Block.vni that concern transactions and payments *)
Record block := mk_block { b_txs : list tx; b_vdf_payout : option addr; b_reward_addr : option addr; b_reward_amount : N; b_project : addr }.

(** exec_result of a transaction of a block; without one the block is not valid *)
Definition res (t : tx) : result := match t_result t with Some r => r | None => mk_result false 0 0 [] [] end.
(** src/Block.cpp:20-34 *)
Definition nsum (l : list N) : N := fold_right N.add 0 l.
Definition size_of (n : node) (l : list tx) : N := nsum (map (static_cost n) l).
Definition cost_of (l : list tx) : N := nsum (map (fun t => rs_cost (res t)) l).
Definition fees_of (l : list tx) : N := nsum (map (fun t => rs_fee (res t)) l).
(** include/mmx/utils.h:222-227, 237-243 *)
Definition project_reward (P : rules) (fees : N) : N :=
  N.min (p_fixed_project P + p_project_value P * fees / p_project_inverse P) (fees / 2).
Definition final_reward (P : rules) (fees : N) : N := p_reward P + (fees - N.max (fees / 2) (project_reward P fees)).

(** src/Block.cpp:79-98 *)
Definition ins_of (l : list tx) : list txin := flat_map (fun t => block_inputs t (res t)) l.
(** src/Block.cpp:100-131 *)
Definition reward_outs (P : rules) (b : block) : list txout :=
  match b_vdf_payout b with Some a => [mk_txout a zero_addr (p_vdf_reward P) None] | None => [] end
  ++ match b_reward_addr b with Some a => if b_reward_amount b =? 0 then [] else [mk_txout a zero_addr (b_reward_amount b) None] | None => [] end
  ++ (let p := project_reward P (fees_of (b_txs b)) in if p =? 0 then [] else [mk_txout (b_project b) zero_addr p None]).
Definition outs_of (P : rules) (b : block) : list txout :=
  reward_outs P b ++ flat_map (fun t => block_outputs t (res t)) (b_txs b).

(** src/Node_validate.cpp:269-296 (and src/Node_update.cpp:860-878): take an amount from a copy of the balances *)
Definition take (b : balances) (a cur : addr) (v : N) : option balances :=
  match b a cur with
  | Some x => if x <? v then None else Some (set_balance b a cur (x - v))
  | None => None
  end.
Fixpoint take_inputs (b : balances) (l : list txin) : option balances :=
  match l with
  | [] => Some b
  | i :: l => match take b (ti_address i) (ti_currency i) (ti_amount i) with Some b => take_inputs b l | None => None end
  end.
Definition take_tx (b : balances) (t : tx) : option balances :=
  match t_sender t with
  | None => None
  | Some s =>
    match take b s zero_addr (rs_fee (res t)) with
    | None => None
    | Some b => if rs_fail (res t) then Some b else take_inputs b (t_inputs t)
    end
  end.
(** src/Node_validate.cpp:243-297: the loop over the transactions before they are executed.  [ids], [ratio]: of the transactions before *)
Fixpoint check_txs (ids : list addr) (ratio : option N) (b : balances) (l : list tx) : bool :=
  match l with
  | [] => true
  | t :: l =>
    match t_sender t, t_result t with
    | Some _, Some _ =>
      if existsb (addr_eqb (t_id t)) ids then false
      else if match ratio with Some x => x <? t_ratio t | None => false end then false
      else match take_tx b t with
           | Some b => check_txs (t_id t :: ids) (Some (t_ratio t)) b l
           | None => false
           end
    | _, _ => false
    end
  end.

(** src/Node_validate.cpp:299-325: minimum fee ratio depending on the size of the block.  The while loop is bounded by the number of bands:
    it goes further only when the block is refused anyway. *)
Fixpoint skip_bands (fuel : nat) (size bands total i : N) : N :=
  match fuel with
  | O => i
  | S f => if (i + 1) * size / bands <? total then skip_bands f size bands total (i + 1) else i
  end.
Fixpoint check_bands (n : node) (P : rules) (i total : N) (l : list tx) : bool :=
  match l with
  | [] => true
  | t :: l =>
    let total := total + static_cost n t in
    let i := skip_bands (length (p_bands P)) (p_max_size P) (N.of_nat (length (p_bands P))) total i in
    match nth_error (p_bands P) (N.to_nat i) with
    | None => false
    | Some m => if t_ratio t <? m * 1024 then false else check_bands n P i total l
    end
  end.
Definition bands_ok (n : node) (P : rules) (l : list tx) : bool :=
  match p_bands P with [] => true | _ => check_bands n P 0 0 (rev l) end.

(** a storage as the backend of a cache, include/mmx/vm/StorageCache.h *)
Definition backend_of (s : storage) : backend :=
  mk_backend (s_read s) (s_entry s) (s_lookup s) (fun c cur => fst (s_get_balance s c cur)).
(** src/Node_validate.cpp:330-345, 940-944: each transaction runs in a cache of its own, which is committed to the cache of the block.
    [bal]: balance_table, which stays as it is until the block is applied.  [None]: an exception. *)
Definition commit_tx (w : option world) (s : storage) : option storage :=
  match w with None => Some s | Some w => commit_into (w_ram w) s end.
Fixpoint run_txs (n : node) (bal : balances) (l : list tx) (s : storage) : option storage :=
  match l with
  | [] => Some s
  | t :: l =>
    match validate n (backend_of s) t bal with
    | VDone r w => match commit_tx w s with Some s => run_txs n bal l s | None => None end
    | _ => None
    end
  end.
(** src/Node_validate.cpp:107-370, what concerns transactions and payments: the result is the cache of the block in front of the database.
    [d_bal d] is the balance table, see StorModel.v *)
Definition block_storage (d : sdb) : storage := SCache ram_empty (SDb d).
Definition validate_block (n : node) (P : rules) (d : sdb) (b : block) : option storage :=
  if negb (size_of n (b_txs b) <=? p_max_size P) then None
  else if negb (cost_of (b_txs b) <=? p_max_cost P) then None
  else if negb (check_txs [] None (d_bal d) (b_txs b)) then None
  else if negb (bands_ok n P (b_txs b)) then None
  else if negb (b_reward_amount b =? match b_reward_addr b with Some _ => final_reward P (fees_of (b_txs b)) | None => 0 end) then None
  else run_txs n (d_bal d) (b_txs b) (block_storage d).

(** src/Node.cpp:1055-1079, 1098-1110.  Amounts are 128 bit numbers; [clamped_sub_assign]: include/mmx/utils.h:404-416.
    The maps of changes are written to the tables at the end. *)
Definition give (b : balances) (o : txout) : balances :=
  set_balance b (to_address o) (to_currency o)
    ((match b (to_address o) (to_currency o) with Some v => v | None => 0 end + to_amount o) mod 2 ^ 128).
Definition draw (b : balances) (i : txin) : balances :=
  match b (ti_address i) (ti_currency i) with
  | Some v => set_balance b (ti_address i) (ti_currency i) (v - N.min v (ti_amount i))
  | None => b
  end.
Definition apply_balances (b : balances) (ins : list txin) (outs : list txout) : balances := fold_left draw ins (fold_left give outs b).
Definition supply := addr -> N.
Definition put_supply (f : supply) (cur : addr) (v : N) : supply := fun c => if addr_eqb c cur then v else f c.
Definition supply_delta (ins : list txin) (outs : list txout) : supply :=
  fold_left (fun f i => put_supply f (ti_currency i) (f (ti_currency i) - N.min (f (ti_currency i)) (ti_amount i))) ins
    (fold_left (fun f o => put_supply f (to_currency o) ((f (to_currency o) + to_amount o) mod 2 ^ 128)) outs (fun _ => 0)).
Definition apply_supply (f : supply) (ins : list txin) (outs : list txout) : supply :=
  fun cur => let delta := supply_delta ins outs cur in if delta =? 0 then f cur else (f cur + delta) mod 2 ^ 128.

(** ** Choosing the transactions of a block: src/Node_update.cpp:758-925 *)
(** Lines 775-782: which of the sorted pool are executed at all; an entry is a transaction with the cost that is known from before. *)
Fixpoint select_cost (max total : N) (l : list (tx * N)) : list tx :=
  match l with
  | [] => []
  | (t, c) :: l => if total + c <=? max then t :: select_cost max (total + c) l else select_cost max total l
  end.
(** Lines 795-835: executing them, here one after the other; those that cannot be executed are not kept.  A transaction that has a result is
    reset before.  Nobody looks at a transaction's effects again when it is dropped later. *)
Definition reset_tx (t : tx) : tx :=
  mk_tx (t_valid t) (t_id t) (t_version t) (t_expires t) (t_ratio t) (t_max_fee t) (t_sender t) (t_inputs t) (t_outputs t) (t_deploy t)
        (t_ops t) (t_base t) (t_nsol t) (t_key t) (t_sol t) None.
Fixpoint execute_txs (n : node) (bal : balances) (l : list tx) (s : storage) : list tx :=
  match l with
  | [] => []
  | t :: l =>
    match validate n (backend_of s) (reset_tx t) bal with
    | VDone r w => match commit_tx w s with Some s => update r t :: execute_txs n bal l s | None => execute_txs n bal l s end
    | _ => execute_txs n bal l s
    end
  end.
(** Lines 844-888: the final set *)
Fixpoint select_final (n : node) (P : rules) (size cost : N) (b : balances) (l : list tx) : list tx :=
  match l with
  | [] => []
  | t :: l =>
    if (p_max_size P <? size + static_cost n t) || (p_max_cost P <? cost + rs_cost (res t)) then select_final n P size cost b l
    else match take_tx b t with
         | Some b => t :: select_final n P (size + static_cost n t) (cost + rs_cost (res t)) b l
         | None => select_final n P size cost b l
         end
  end.
(** Lines 896-924: bands.  [avail]: band_avail; [i]: the band; subtraction wraps at 2^64. *)
Definition sub64 (a b : N) : N := (a + 2 ^ 64 - b) mod 2 ^ 64.
Definition band_size (size bands i : N) : N := (i + 1) * size / bands - i * size / bands.
Fixpoint lower_band (avail : N -> N) (min : N -> N) (ratio : N) (i : nat) : nat :=
  match i with
  | O => O
  | S j => if (avail (N.of_nat i) =? 0) || (ratio <? min (N.of_nat i) * 1024) then lower_band avail min ratio j else i
  end.
Definition set_avail (f : N -> N) (i v : N) : N -> N := fun j => if j =? i then v else f j.
Fixpoint select_bands (n : node) (min : N -> N) (avail : N -> N) (i : nat) (l : list tx) : list tx :=
  match l with
  | [] => []
  | t :: l =>
    let i := lower_band avail min (t_ratio t) i in
    let a := avail (N.of_nat i) in
    let c := static_cost n t in
    if a <? c then
      match i with
      | O => select_bands n min avail i l
      | S j => t :: select_bands n min (set_avail (set_avail avail (N.of_nat j) (sub64 (avail (N.of_nat j)) (c - a))) (N.of_nat i) 0) i l
      end
    else t :: select_bands n min (set_avail avail (N.of_nat i) (a - c)) i l
  end.
Definition choose_bands (n : node) (P : rules) (l : list tx) : list tx :=
  match p_bands P with
  | [] => l
  | _ => let k := length (p_bands P) in
         select_bands n (fun i => nth (N.to_nat i) (p_bands P) 0) (fun i => band_size (p_max_size P) (N.of_nat k) i) (k - 1) l
  end.
(** [pool]: the entries of the pool, sorted by falling fee ratio *)
Definition choose (n : node) (P : rules) (d : sdb) (pool : list (tx * N)) : list tx :=
  choose_bands n P (select_final n P 0 0 (d_bal d)
    (execute_txs n (d_bal d) (select_cost (p_max_cost P) 0 pool) (block_storage d))).
