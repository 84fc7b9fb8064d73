(** What the node tells about farmed blocks: the table of farmed blocks, the ranking of farmers, and the queries.
    /repo/src/Node.cpp:927-933, 1029-1161, 1289-1353, src/Node_api.cpp:1455-1512, include/mmx/table.h:147-254. *)
Require Import List Arith NArith ZArith Bool.
From Verif Require Import BytesLib OrdLib EngineModel CtrModel HistModel OfqModel.
Import List ListNotations.
Open Scope N_scope.

(** of a block: height, key of the first proof (BlockHeader.cpp:120-126), reward_amount, reward_addr *)
Record blk := mk_blk { k_height_ : N; k_farmer : addr; k_reward : N; k_addr : option addr }.
(** interface/farmed_block_info_t.vni *)
Record info := mk_info { n_height : N; n_reward : N; n_addr : addr }.
(** farmer_block_map: keys are pairs of farmer key and height, written here as keys whose last part is 0 *)
Definition table : Type := list (key * info).
(** The chain that was applied, newest first, and for each block the table as it was before: what the database goes back to (Node.cpp:1326, 1152: the version of the tables
    after a block is its height plus one; that DataBase::revert restores tables is another property).  farmer_ranking. *)
Record node := mk_node { w_chain : list (blk * table); w_table : table; w_ranking : list (addr * N) }.

(** Node.cpp:1131-1141, with 32 bit counts *)
Fixpoint bump (k : addr) (l : list (addr * N)) : list (addr * N) :=
  match l with
  | [] => [(k, 1)]
  | (x, n) :: l => if addr_eqb x k then (x, (n + 1) mod 2 ^ 32) :: l else (x, n) :: bump k l
  end.
(** Node.cpp:1299-1307 *)
Fixpoint drop_one (k : addr) (l : list (addr * N)) : list (addr * N) :=
  match l with
  | [] => []
  | (x, n) :: l => if addr_eqb x k then (x, if 0 <? n then n - 1 else n) :: l else (x, n) :: drop_one k l
  end.
(** Node.cpp:1336-1345: counts by farmer.  The rows are in order of farmers, so that the map has them in the order in which they are seen. *)
Definition recount (t : table) : list (addr * N) := fold_left (fun l r => bump (fst (fst (fst r))) l) t [].

Section NODE.
  (** std::sort with the comparison of Node.cpp:929-932; it leaves the order of farmers with the same count open *)
  Variable sort : list (addr * N) -> list (addr * N).

  (** Node.cpp:1122-1143; info.reward has 32 bits (farmed_block_info_t.vni:6) *)
  Definition note_block (b : blk) (s : node) : node :=
    if k_height_ b =? 0 then s
    else mk_node (w_chain s) (aset key_cmp ((k_farmer b, k_height_ b), 0) (mk_info (k_height_ b) (k_reward b mod 2 ^ 32) (match k_addr b with Some a => a | None => native end)) (w_table s))
           (sort (bump (k_farmer b) (w_ranking s))).
  (** the height after the peak; blocks with another parent are refused (Node.cpp:1032-1034) *)
  Definition next_height (s : node) : N := match w_chain s with [] => 0 | (b, _) :: _ => k_height_ b + 1 end.
  (** Node.cpp:1029-1153 *)
  Definition apply_ok (b : blk) (s : node) : node := let s' := note_block b s in mk_node ((b, w_table s) :: w_chain s) (w_table s') (w_ranking s').
  (** Node.cpp:1326: db->revert *)
  Fixpoint db_revert (h : N) (c : list (blk * table)) (t : table) : list (blk * table) * table :=
    match c with
    | [] => ([], t)
    | (b, t') :: c' => if h <=? k_height_ b then db_revert h c' t' else (c, t)
    end.
  (** Node.cpp:1295-1308: from the peak back *)
  Fixpoint walk_back (h : N) (c : list (blk * table)) (l : list (addr * N)) : list (addr * N) :=
    match c with
    | [] => l
    | (b, _) :: c => if h <=? k_height_ b then walk_back h c (if k_height_ b =? 0 then l else drop_one (k_farmer b) l) else l
    end.
  (** Node.cpp:1289-1353.  [deep]: there is no root or the height is not above it; the root is arbitrary here. *)
  Definition revert (deep : bool) (h : N) (s : node) : node :=
    let l := if deep then w_ranking s else walk_back h (w_chain s) (w_ranking s) in
    let (c, t) := db_revert h (w_chain s) (w_table s) in
    mk_node c t (sort (if deep || match l with [] => true | _ => false end then recount t else l)).
  (** Node.cpp:1154-1160: an exception while a block is applied, before farmer_ranking is changed or after (write_block and height_map.insert, Node.cpp:1145-1147), but before
      state_hash is the one of the block.  (After that it is as if the block was applied and reverted.) *)
  Definition apply_fails (late deep : bool) (b : blk) (s : node) : node :=
    let s' := note_block b s in
    revert deep (k_height_ b) (mk_node (w_chain s) (w_table s) (if late then w_ranking s' else w_ranking s)).

  (** [Apply], [Fail]: a block; [Revert]: Node.cpp:709 and the others; [Restart]: the node is started again and goes back to a height (Node.cpp:211-213) *)
  Inductive op := Apply (b : blk) | Fail (late deep : bool) (b : blk) | Revert (deep : bool) (h : N) | Restart (h : N).
  Definition step (s : node) (o : op) : option node :=
    match o with
    | Apply b => if k_height_ b =? next_height s then Some (apply_ok b s) else None
    | Fail late deep b => if k_height_ b =? next_height s then Some (apply_fails late deep b s) else None
    | Revert deep h => Some (revert deep h s)
    | Restart h => Some (revert true h (mk_node (w_chain s) (w_table s) []))
    end.
  Fixpoint run (s : node) (l : list op) : option node := match l with [] => Some s | o :: l => match step s o with Some s => run s l | None => None end end.
  Definition start : node := mk_node [] [] [].
End NODE.

(** Node_api.cpp:1498-1512 *)
Definition get_farmer_ranking (s : node) (limit : Z) : list (addr * N) := if (limit <? 0)%Z then w_ranking s else take (Z.to_N limit) (w_ranking s).
(** std::sort by height, Node_api.cpp:1464-1467; rows with the same height are the same block *)
Fixpoint put (x : info) (l : list info) : list info := match l with [] => [x] | y :: l => if n_height y <=? n_height x then x :: y :: l else y :: put x l end.
(** get_block_at_ex *)
Definition block_at (s : node) (h : N) : option blk := find (fun b => k_height_ b =? h) (map fst (w_chain s)).
(** Node_api.cpp:1455-1480 *)
Definition get_farmed_blocks (s : node) (farmers : list addr) (since : N) (limit : Z) : list (option blk) :=
  let entries := flat_map (fun k => map snd (take (size limit) (last_range ((k, since), 0) ((k, top), 0) (w_table s)))) farmers in
  let entries := fold_right put [] entries in
  let entries := if (0 <=? limit)%Z then take (Z.to_N limit) entries else rev entries in
  map (fun e => block_at s (n_height e)) entries.
(** interface/farmed_block_summary_t.vni *)
Record summary := mk_summary { m_blocks : N; m_last : N; m_total : N; m_map : list (addr * N) }.
Definition add_info (m : summary) (e : info) : summary :=
  mk_summary ((m_blocks m + 1) mod 2 ^ 32) (N.max (n_height e) (m_last m)) ((m_total m + n_reward e) mod 2 ^ 64)
    (aset bytescmp (n_addr e) ((match aget bytescmp (n_addr e) (m_map m) with Some x => x | None => 0 end + n_reward e) mod 2 ^ 64) (m_map m)).
(** Node_api.cpp:1482-1496 *)
Definition get_farmed_block_summary (s : node) (farmers : list addr) (since : N) : summary :=
  fold_left add_info (flat_map (fun k => map snd (first_range ((k, since), 0) ((k, top), 0) (w_table s))) farmers) (mk_summary 0 0 0 []).
