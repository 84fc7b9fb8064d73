(** Transactions by id: the file of blocks, the index of transactions and the queries on them (src/Node.cpp, src/Node_api.cpp).  Hashes, ids and contracts are numbers. *)
Require Import List Arith NArith Bool.
From Verif Require Import PrsModel FrmModel.
Import ListNotations.
Open Scope N_scope.

(** [t_rest]: all other fields *)
Record txn := mk_txn { t_id : N; t_rest : N }.
(** [k_rest]: all other fields of the header *)
Record block := mk_block { k_hash : N; k_height : N; k_time : N; k_rest : N; k_txs : list txn }.
(** What vnx::read finds in blocks.dat.  Simplified: a record takes one place in the file, so offsets count records.  [Junk]: anything that is no header, transaction or end (nullptr), as an interrupted write leaves it. *)
Inductive rec := Head (b : block) | Tx (t : txn) | End | Junk.

(** interface/tx_index_t.vni: height, time_stamp, file_offset *)
Record place := mk_place { x_height : N; x_time : N; x_offset : nat }.
(** The tables of the database of the chain; tx_log and height_map are ordered by height *)
Record tables := mk_tables { tx_index : list (N * place); tx_log : list (N * list N); height_map : list (N * N) }.

(** [vers]: the versions of the database, the latest first: version n is the last but n (C01-C03, C68: revert(n) gives version n back); [index]: block_index *)
Record node := mk_node { vers : list tables; file : list rec; index : list (N * nat) }.
Definition no_tables : tables := mk_tables [] [] [].
Definition init : node := mk_node [no_tables] [] [].
Definition cur (n : node) : tables := match vers n with T :: _ => T | [] => no_tables end.

(** insertion by key in a table, in the order of keys *)
Fixpoint ins {V} (k : N) (v : V) (l : list (N * V)) : list (N * V) :=
  match l with
  | [] => [(k, v)]
  | (a, w) :: r => if k <? a then (k, v) :: l else if k =? a then (k, v) :: r else (a, w) :: ins k v r
  end.

(** src/Node.cpp:1842-1856 (read_block): transactions and their offsets up to the end; [None]: something else is found, or the file ends *)
Fixpoint read_txs (o : nat) (l : list rec) : option (list (nat * txn)) :=
  match l with
  | Tx t :: r => match read_txs (S o) r with Some m => Some ((o, t) :: m) | None => None end
  | End :: _ => Some []
  | _ => None
  end.
(** src/Node.cpp:1830-1866 read_block *)
Definition read_block (o : nat) (f : list rec) : option (block * list (nat * txn)) :=
  match skipn o f with
  | Head b :: r => match read_txs (S o) r with Some m => Some (b, m) | None => None end
  | _ => None
  end.

Section NODE.
  Variable is_valid : block -> list txn -> bool.     (* Block::is_valid of header and transactions *)

  (** src/Transaction.cpp:308-320 get_tx_index and src/Node.cpp:1891-1894, 1907-1916: the index of the transactions of [b], given with their offsets *)
  Definition add_index (b : block) (m : list (nat * txn)) (T : list (N * place)) : list (N * place) :=
    fold_left (fun T e => put (t_id (snd e)) (mk_place (k_height b) (k_time b) (fst e)) T) m T.

  (** src/Node.cpp:1868-1929 write_block; what it adds to tx_index is returned ([main] as is_main).  height_index is left out. *)
  Definition append (b : block) (main : bool) (n : node) (T : list (N * place)) : node * list (N * place) :=
    let o := length (file n) in
    (mk_node (vers n) (file n ++ Head b :: map Tx (k_txs b) ++ [End]) (put (k_hash b) o (index n)),
     if main then add_index b (combine (seq (S o) (length (k_txs b))) (k_txs b)) T else T).
  Definition write_block (b : block) (main : bool) (n : node) (T : list (N * place)) : node * list (N * place) :=
    match get (k_hash b) (index n) with
    | Some o =>
      match read_block o (file n) with
      | Some (h, m) =>
        if is_valid h (map snd m) && (length m =? length (k_txs b))%nat
        then (n, if main then add_index b (combine (map fst m) (k_txs b)) T else T)
        else append b main n T
      | None => append b main n T
      end
    | None => append b main n T
    end.

  (** src/Node_validate.cpp:264-273 and 623-625: no transaction that is there already, none twice *)
  Fixpoint nodupb (l : list N) : bool := match l with [] => true | x :: r => negb (existsb (N.eqb x) r) && nodupb r end.
  Definition fresh (b : block) (n : node) : bool :=
    nodupb (map t_id (k_txs b)) && forallb (fun t => match get (t_id t) (tx_index (cur n)) with Some _ => false | None => true end) (k_txs b).

  (** src/Node.cpp:1079-1149 (apply): tx_log, write_block, height_map, commit of version height + 1.  Applied is the block after the peak (C31, C53 on how the peak is chosen). *)
  Definition apply (b : block) (n : node) : node :=
    if (k_height b =? N.of_nat (length (vers n)) - 1) && fresh b n then
      let T := cur n in
      let ids := map t_id (k_txs b) in
      let log := match ids with [] => tx_log T | _ => ins (k_height b) ids (tx_log T) end in
      let '(n', idx) := write_block b true n (tx_index T) in
      mk_node (mk_tables idx log (ins (k_height b) (k_hash b) (height_map T)) :: vers n') (file n') (index n')
    else n.
  (** src/Node.cpp:376-384, 975-979: a block that is not on the chain; what write_block writes to tx_index shows in the present version *)
  Definition set_index (idx : list (N * place)) (n : node) : node :=
    match vers n with T :: r => mk_node (mk_tables idx (tx_log T) (height_map T) :: r) (file n) (index n) | [] => n end.
  Definition side (b : block) (n : node) : node := let '(n', idx) := write_block b false n (tx_index (cur n)) in set_index idx n'.
  (** src/Node.cpp:1289-1292 (revert): DataBase::revert(height) *)
  Definition revert (h : nat) (n : node) : node := mk_node (skipn (length (vers n) - S h) (vers n)) (file n) (index n).
  (** The process ends at any time and starts again: the database of the chain goes back to a version, the file may end with what was being written.  Blocks in block_index were flushed before (1918, 1928). *)
  Definition crash (h : nat) (junk : list rec) (n : node) : node := let n := revert h n in mk_node (vers n) (file n ++ junk) (index n).

  Inductive event := Apply (b : block) | Side (b : block) | Revert (h : nat) | Crash (h : nat) (junk : list rec).
  Definition step (n : node) (e : event) : node :=
    match e with Apply b => apply b n | Side b => side b n | Revert h => revert h n | Crash h j => crash h j n end.
  Definition run (l : list event) : node := fold_left step l init.
End NODE.

(** src/Node_api.cpp:225-232 get_block_hash *)
Definition get_block_hash (n : node) (h : N) : option N := get h (height_map (cur n)).
(** src/Node_api.cpp:276-283 get_tx_height *)
Definition get_tx_height (n : node) (id : N) : option N := option_map x_height (get id (tx_index (cur n))).
(** src/Node_api.cpp:257-262 get_tx_ids_at *)
Definition get_tx_ids_at (n : node) (h : N) : list N := match get h (tx_log (cur n)) with Some l => l | None => [] end.
(** src/Node_api.cpp:264-274 get_tx_ids_since *)
Definition get_tx_ids_since (n : node) (h : N) : list N := concat (map snd (filter (fun e => h <=? fst e) (tx_log (cur n)))).
(** src/Node_api.cpp:241-255 get_tx_ids: reverse_scan from the last height, until a call returns false *)
Fixpoint take_ids (limit : nat) (l out : list N) : list N * bool :=
  match l with
  | [] => (out, (length out <? limit)%nat)
  | id :: r => if (length out <? limit)%nat then take_ids limit r (out ++ [id]) else (out, false)
  end.
Fixpoint scan_ids (limit : nat) (l : list (N * list N)) (out : list N) : list N :=
  match l with
  | [] => out
  | (_, ids) :: r => let '(out, more) := take_ids limit ids out in if more then scan_ids limit r out else out
  end.
Definition get_tx_ids (n : node) (limit : nat) : list N := scan_ids limit (rev (tx_log (cur n))) [].
(** src/Node_api.cpp:346-372 get_transaction.  [pool]: tx_pool; [queue]: tx_queue in its order *)
Definition stored (n : node) (id : N) : option txn :=
  match get id (tx_index (cur n)) with
  | Some p => match nth_error (file n) (x_offset p) with Some (Tx t) => Some t | _ => None end
  | None => None
  end.
Definition get_transaction (n : node) (pool : list (N * txn)) (queue : list (option txn)) (id : N) (pending : bool) : option txn :=
  if pending then
    match get id pool with
    | Some t => Some t
    | None => match find (fun q => match q with Some t => t_id t =? id | None => false end) queue with Some (Some t) => Some t | _ => stored n id end
    end
  else stored n id.
(** src/Node_api.cpp:293-311 (get_tx_info_for): height, time and block of a transaction *)
Definition get_tx_block (n : node) (id : N) : option (N * N * option N) :=
  match get id (tx_index (cur n)) with Some p => Some (x_height p, x_time p, get_block_hash n (x_height p)) | None => None end.
