(** The history of an address: what a block writes to the log of payments, and Node::get_history and Node::get_history_memo.
    /repo/src/Node.cpp:1055-1079, src/Block.cpp:79-131, src/Node_api.cpp:388-584, include/mmx/table.h:206-254.
    An entry has the fields the result is sorted by; time stamps and the flags of [tx_entry_t] are left out. *)
Require Import List Arith NArith ZArith Bool.
From Verif Require Import BytesLib OrdLib VarModel EngineModel TxModel BlockModel.
Import List ListNotations.
Open Scope N_scope.

(** interface/tx_type_e.vni *)
Inductive kind := SPEND | RECEIVE | TXFEE | REWARD | VDF_REWARD | PROJECT_REWARD.
Definition kind_code (k : kind) : N := match k with SPEND => 0 | RECEIVE => 1 | TXFEE => 2 | REWARD => 3 | VDF_REWARD => 4 | PROJECT_REWARD => 5 end.
(** interface/txio_t.vni, txio_entry_t.vni *)
Record entry := mk_entry { e_height : N; e_txid : addr; e_kind : kind; e_contract : addr; e_address : addr; e_memo : option bytes; e_amount : N }.

(** std::tuple<addr_t, uint32_t, uint32_t>, compared from left to right; include/mmx/bytes_t.hpp:184-186 *)
Definition key : Type := (addr * N) * N.
Definition key_cmp : key -> key -> comparison := lexcmp (lexcmp bytescmp N.compare) N.compare.
Definition key_ltb (a b : key) : bool := match key_cmp a b with Lt => true | _ => false end.
Definition k_height (k : key) : N := snd (fst k).

(** include/mmx/table.h:206-254: [seek_prev] goes to the last key below [hi], [prev] from there (C07, C08: the rows of a table in the order of
    their keys).  Rows whose value does not decode are not modelled. *)
Fixpoint take_while {A} (f : A -> bool) (l : list A) : list A :=
  match l with [] => [] | x :: l => if f x then x :: take_while f l else [] end.
Definition last_range {V} (lo hi : key) (log : list (key * V)) : list (key * V) :=
  take_while (fun r => negb (key_ltb (fst r) lo)) (rev (filter (fun r => key_ltb (fst r) hi) log)).

(** interface/query_filter_t.vni, without memo, white_list, with_pending.  An empty set of currencies admits all. *)
Record query := mk_query { q_since : N; q_until : N; q_limit : Z; q_max_search : N; q_currency : list addr; q_kind : option kind }.
(** src/Node_api.cpp:388-398 *)
Definition passes (q : query) (e : entry) : bool :=
  match q_kind q with Some k => kind_code (e_kind e) =? kind_code k | None => true end &&
  match q_currency q with [] => true | cs => existsb (addr_eqb (e_contract e)) cs end.

(** the conversion uint32_t(filter.limit) *)
Definition u32 (z : Z) : N := Z.to_N (z mod 2 ^ 32)%Z.
Definition chunk_size : nat := 100.

Section SCAN.
  Context {V : Type}.
  Variable log : list (key * V).
  (** what a row shows, filtered *)
  Variable view : key * V -> list entry.
  (** whether the rest of the last block is added, Node_api.cpp:444-455; get_history_memo does not *)
  Variable finish : bool.
  Variable q : query.

  (** state_map and count_map *)
  Record cursor := mk_cursor { c_at : key; c_count : N }.
  (** Node_api.cpp:423-442, 519-543: one address in one round.  The result: the rows read, the new cursor, whether it is done. *)
  Definition advance (c : cursor) : list (key * V) * cursor * bool :=
    let rows := firstn chunk_size (last_range (fst (fst (c_at c)), q_since q, 0) (c_at c) log) in
    let count := (c_count c + N.of_nat (List.length (flat_map view rows))) mod 2 ^ 32 in
    let at' := last (map fst rows) (c_at c) in
    (rows, mk_cursor at' count, (List.length rows <? chunk_size)%nat || (u32 (q_limit q) <=? count)).
  (** Node_api.cpp:444-455 *)
  Definition rest_of_block (k : key) : list (key * V) := last_range (fst k, 0) k log.

  (** Node_api.cpp:421-457, 517-547: the body of the loop over all addresses that are left.  Whether an address is finished is decided in
      the first inner loop, what is missing from its last block is read in the second; here both are done address by address, which changes
      the order of the result before it is sorted and nothing else. *)
  Fixpoint round (cs : list cursor) : list (key * V) * list cursor :=
    match cs with
    | [] => ([], [])
    | c :: cs =>
      let '(rows, c', done) := advance c in
      let (more, left) := round cs in
      if done then (rows ++ (if finish then rest_of_block (c_at c') else []) ++ more, left) else (rows ++ more, c' :: left)
    end.
  (** Node_api.cpp:417-421.  [fuel]: number of rounds, [None] if there are more. *)
  Fixpoint rounds (fuel : nat) (cs : list cursor) (searched : N) : option (list (key * V)) :=
    match cs with
    | [] => Some []
    | _ =>
      if negb (searched <? (if q_max_search q =? 0 then 2 ^ 64 - 1 else q_max_search q)) then Some []
      else match fuel with
           | O => None
           | S f => let (rows, left) := round cs in
                    match rounds f left (searched + N.of_nat (List.length rows)) with Some l => Some (rows ++ l) | None => None end
           end
    end.
  (** Node_api.cpp:408-415, 503-510: [prefixes]: the first parts of the keys for the addresses of [address_set] *)
  Definition scan (prefixes : list addr) : option (list entry) :=
    match rounds (S (List.length log)) (map (fun a => mk_cursor ((a, q_until q), 2 ^ 32 - 1) 0) prefixes) 0 with
    | Some rows => Some (flat_map view rows)
    | None => None
    end.
End SCAN.

(** Node_api.cpp:487-490, 572-575: the order of the result *)
Definition optcmp (x y : option bytes) : comparison :=
  match x, y with None, None => Eq | None, _ => Lt | _, None => Gt | Some x, Some y => bytescmp x y end.
Definition entry_rank (e : entry) :=
  (e_height e, (e_txid e, (kind_code (e_kind e), (e_contract e, (e_address e, (e_memo e, e_amount e)))))).
Definition rank_cmp := lexcmp N.compare (lexcmp bytescmp (lexcmp N.compare (lexcmp bytescmp (lexcmp bytescmp (lexcmp optcmp N.compare))))).
Definition above (x y : entry) : bool := match rank_cmp (entry_rank x) (entry_rank y) with Gt => true | _ => false end.
Fixpoint put (x : entry) (l : list entry) : list entry :=
  match l with [] => [x] | y :: l => if above x y then x :: y :: l else y :: put x l end.
Definition sort (l : list entry) : list entry := fold_right put [] l.
(** Node_api.cpp:491-495, 576-580: cut the result, but not within a block *)
Definition cut (limit : Z) (l : list entry) : list entry :=
  if (0 <? limit)%Z && (limit <? Z.of_nat (List.length l))%Z then
    let i := Z.to_nat (limit - 1) in
    match skipn i l with
    | [] => l
    | x :: _ => firstn i l ++ take_while (fun y => e_height y =? e_height x) (skipn i l)
    end
  else l.

(** std::set<addr_t>(addresses.begin(), addresses.end()) *)
Definition address_set (l : list addr) : list addr := map fst (fold_left (fun s a => aset bytescmp a tt s) l []).

(** Node_api.cpp:400-496.  [pending]: what the pool adds, lines 459-486 (PoolModel.v, C62); it is not filtered. *)
Definition get_history (log : list (key * entry)) (pending : list entry) (addresses : list addr) (q : query) : option (list entry) :=
  if (q_limit q =? 0)%Z then Some []
  else match scan log (fun r => if passes q (snd r) then [snd r] else []) true q (address_set addresses) with
       | Some l => Some (cut (q_limit q) (sort (l ++ pending)))
       | None => None
       end.
(** Node_api.cpp:498-582.  [H]: the hash of an address followed by a memo.  [memos]: memo_log. *)
Definition get_history_memo (H : addr -> bytes -> addr) (log : list (key * entry)) (memos : list (key * addr)) (pending : list entry)
    (addresses : list addr) (memo : bytes) (q : query) : option (list entry) :=
  if (q_limit q =? 0)%Z then Some []
  else match scan memos (fun r => match aget key_cmp ((snd r, k_height (fst r)), snd (fst r)) log with
                                  | Some e => if passes q e then [e] else []
                                  | None => []
                                  end) false q (map (fun a => H a memo) (address_set addresses)) with
       | Some l => Some (cut (q_limit q) (sort (l ++ pending)))
       | None => None
       end.

(** ** What a block writes *)
(** src/Block.cpp:100-131; [id], [height]: of the block *)
Definition entry_in (id : addr) (height : N) (k : kind) (i : txin) : entry :=
  mk_entry height id k (ti_currency i) (ti_address i) (ti_memo i) (ti_amount i).
Definition entry_out (id : addr) (height : N) (k : kind) (o : txout) : entry :=
  mk_entry height id k (to_currency o) (to_address o) (to_memo o) (to_amount o).
Definition reward_entries (P : rules) (id : addr) (height : N) (b : block) : list entry :=
  match b_vdf_payout b with Some a => [entry_out id height VDF_REWARD (mk_txout a zero_addr (p_vdf_reward P) None)] | None => [] end
  ++ match b_reward_addr b with
     | Some a => if b_reward_amount b =? 0 then [] else [entry_out id height REWARD (mk_txout a zero_addr (b_reward_amount b) None)]
     | None => []
     end
  ++ (let p := project_reward P (fees_of (b_txs b)) in if p =? 0 then [] else [entry_out id height PROJECT_REWARD (mk_txout (b_project b) zero_addr p None)]).
Definition tx_outputs (height : N) (t : tx) : list entry :=
  if rs_fail (res t) then [] else map (entry_out (t_id t) height RECEIVE) (t_outputs t ++ rs_outputs (res t)).
Definition outputs_of (P : rules) (id : addr) (height : N) (b : block) : list entry :=
  reward_entries P id height b ++ flat_map (tx_outputs height) (b_txs b).
(** src/Block.cpp:79-98 *)
Definition tx_inputs (height : N) (t : tx) : list entry :=
  match t_sender t with Some a => [entry_in (t_id t) height TXFEE (mk_txin a zero_addr (rs_fee (res t)) None false 0)] | None => [] end
  ++ (if rs_fail (res t) then [] else map (entry_in (t_id t) height SPEND) (t_inputs t ++ rs_inputs (res t))).
Definition inputs_of (height : N) (b : block) : list entry := flat_map (tx_inputs height) (b_txs b).
(** src/Node.cpp:1057-1079: outputs, then inputs; [counter] *)
Fixpoint write_log (counter : N) (l : list entry) (log : list (key * entry)) : list (key * entry) :=
  match l with
  | [] => log
  | e :: l => write_log (counter + 1) l (aset key_cmp ((e_address e, e_height e), counter) e log)
  end.
Fixpoint write_memos (H : addr -> bytes -> addr) (counter : N) (l : list entry) (memos : list (key * addr)) : list (key * addr) :=
  match l with
  | [] => memos
  | e :: l => write_memos H (counter + 1) l
      match e_memo e with Some m => aset key_cmp ((H (e_address e) m, e_height e), counter) (e_address e) memos | None => memos end
  end.
Definition block_entries (P : rules) (id : addr) (height : N) (b : block) : list entry := outputs_of P id height b ++ inputs_of height b.
