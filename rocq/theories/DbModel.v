(** Model of the versioned key-value store: class [Table] of src/DataBase.cpp and
    include/mmx/DataBase.h.

    Simplifications made throughout:
    - file contents are modelled as the sequence of records written (the byte framing of
      entries, src/DataBase.cpp:33-103, and the CRC are not modelled; a torn last log record is dropped,
      as the reader does on underflow, lines 197-199);
    - file offsets inside a block are entry numbers;
    - the [write_lock] / mutex of live iterators is not modelled (a write while an iterator lives throws);
    - the size based flush policy [do_flush] (lines 414-419) is replaced by an arbitrary boolean, which
      covers every threshold;
    - keys and values are arbitrary types [K], [V]; [kcmp] is the comparator of the table. *)
Require Import List NArith Bool.
Require Import Verif.OrdLib.
Import ListNotations.
Set Implicit Arguments.
Open Scope N_scope.

(** uint32_t(-1) *)
Definition u32max : N := 4294967295.

Section Db.
  Context {K V : Type} (kcmp : K -> K -> comparison).

  (** One stored record: key, version, value. *)
  Definition entry : Type := ((K * N) * V)%type.
  Definition ekey (e : entry) : K := fst (fst e).
  Definition ever (e : entry) : N := snd (fst e).
  Definition evl (e : entry) : V := snd e.

  (** include/mmx/DataBase.h:43-54 (db_val_t::operator==); agrees with a comparator returning 0 *)
  Definition keqb (x y : K) : bool := match kcmp x y with Eq => true | _ => false end.

  (** include/mmx/DataBase.h:96-107 (mem_compare_t): key ascending, version descending *)
  Definition vcmp : (K * N) -> (K * N) -> comparison := lexcmp kcmp (flipcmp N.compare).

  (** include/mmx/DataBase.h:77-86 (block_t); [b_id] is the number in the file name, [b_index] the
      offsets of the first (newest) record of each key. total_count is [length b_entries]. *)
  Record block := mk_block {
    b_id : N;
    b_level : N;
    b_min : N;
    b_max : N;
    b_entries : list entry;
    b_index : list nat
  }.

  (** src/DataBase.cpp:449-466, 548-560, 619-634: the index gets a new offset whenever the key changes *)
  Fixpoint mk_index (prev : option K) (pos : nat) (es : list entry) : list nat :=
    match es with
    | [] => []
    | e :: es' =>
      let rest := mk_index (Some (ekey e)) (S pos) es' in
      match prev with
      | Some p => if keqb (ekey e) p then rest else pos :: rest
      | None => pos :: rest
      end
    end.

  (** src/DataBase.cpp:554-555, 627-628 with the initial values of create_block (line 723) and block_t *)
  Definition min_ver (es : list entry) : N := fold_left (fun m e => N.min (ever e) m) es u32max.
  Definition max_ver (es : list entry) : N := fold_left (fun m e => N.max (ever e) m) es 0.

  Definition make_block (id level : N) (es : list entry) : block :=
    mk_block id level (min_ver es) (max_ver es) es (mk_index None 0 es).

  (** the record a given index position points to *)
  Definition entry_at (b : block) (pos : nat) : option entry :=
    match nth_error (b_index b) pos with
    | Some off => nth_error (b_entries b) off
    | None => None
    end.

  (** src/DataBase.cpp:356-370: binary search for the first index position whose key is greater.
      [None]: read error / fuel exhausted (shown unreachable). *)
  Fixpoint bsearch (fuel : nat) (b : block) (k : K) (L R : nat) : option nat :=
    if Nat.ltb L R then
      match fuel with
      | O => None
      | S fuel' =>
        let pos := Nat.div (L + R) 2 in
        match entry_at b pos with
        | None => None
        | Some e =>
          match kcmp k (ekey e) with
          | Lt => bsearch fuel' b k L pos
          | _ => bsearch fuel' b k (S pos) R
          end
        end
      end
    else Some R.

  (** src/DataBase.cpp:350-386 (Table::lower_bound): position, and the record there if any, and is_match *)
  Definition lower_bound (b : block) (k : K) : option (nat * option entry * bool) :=
    match bsearch (S (length (b_index b))) b k 0 (length (b_index b)) with
    | None => None
    | Some R =>
      let succ := (R, entry_at b R, false) in
      match R with
      | O => Some succ
      | S R' =>
        match entry_at b R' with
        | None => None
        | Some e => if keqb k (ekey e) then Some (R', Some e, true) else Some succ
        end
      end
    end.

  (** src/DataBase.cpp:333-347: read on until the version is low enough or the key changes *)
  Fixpoint scan_versions (k : K) (mv : N) (es : list entry) : option V :=
    match es with
    | [] => None
    | e :: es' =>
      if keqb (ekey e) k then
        if ever e <=? mv then Some (evl e) else scan_versions k mv es'
      else None
    end.

  (** src/DataBase.cpp:316-348 (Table::find in a block) *)
  Definition find_block (b : block) (k : K) (mv : N) : option V :=
    match lower_bound b k with
    | Some (pos, _, true) =>
      match nth_error (b_index b) pos with
      | Some off => scan_versions k mv (skipn off (b_entries b))
      | None => None
      end
    | _ => None
    end.

  (** include/mmx/DataBase.h:216-230: the members of Table *)
  Record table := mk_table {
    t_cur : N;                      (* curr_version *)
    t_last_flush : N;
    t_next_id : N;                  (* next_block_id *)
    t_blocks : list block;
    t_mem : list entry;             (* mem_block, sorted by vcmp *)
    t_idx : list (K * (V * N))      (* mem_index, sorted by kcmp *)
  }.

  (** src/DataBase.cpp:270-279 (Table::insert_entry), without the size accounting *)
  Definition insert_entry (ver : N) (k : K) (v : V) (t : table) : table :=
    mk_table (t_cur t) (t_last_flush t) (t_next_id t) (t_blocks t)
             (aset vcmp (k, ver) v (t_mem t)) (aset kcmp k (v, ver) (t_idx t)).

  (** src/DataBase.cpp:292-302: search the memory table from lower_bound backwards *)
  Fixpoint scan_back (k : K) (mv : N) (l : list entry) : option V :=
    match l with
    | [] => None
    | e :: l' =>
      if keqb (ekey e) k then
        if ever e <=? mv then Some (evl e) else scan_back k mv l'
      else None
    end.

  Definition find_mem (t : table) (k : K) (mv : N) : option V :=
    match alower vcmp (k, mv) (t_mem t) with
    | [] => None
    | e :: _ => scan_back k mv (e :: abelow vcmp (k, mv) (t_mem t) [])
    end.

  (** src/DataBase.cpp:306-313: blocks newest first *)
  Fixpoint find_blocks (bs : list block) (k : K) (mv : N) : option V :=
    match bs with
    | [] => None
    | b :: bs' =>
      if b_min b <=? mv then
        match find_block b k mv with
        | Some v => Some v
        | None => find_blocks bs' k mv
        end
      else find_blocks bs' k mv
    end.

  (** src/DataBase.cpp:281-314 (Table::find) *)
  Definition find (t : table) (k : K) (mv : N) : option V :=
    let disk := find_blocks (rev (t_blocks t)) k mv in
    match aget kcmp k (t_idx t) with
    | Some (v, ver) =>
      if ver <=? mv then Some v
      else match find_mem t k mv with Some v => Some v | None => disk end
    | None => disk
    end.

  (** Records of write_log.dat (lines 190-210, 267, 396-400, 432-436, 531-535). *)
  Inductive logrec :=
  | LEntry (ver : N) (k : K) (v : V)
  | LCommit (n : N)
  | LReset (n : N)
  | LRevert (n : N).

  (** File system effects, in program order. [EPut] makes a complete block file visible under its final
      name by rename (lines 735-751), replacing a file of the same name. [EMerge] is the finalisation of
      a merge: rename of the merged block followed by the unlink of each source (lines 682-693);
      [expand] splits it into its single system calls. [EAppend] writes to the buffered log stream,
      [EFlush] is write_log.flush(), [ETrunc] is write_log.open("wb"). *)
  Inductive eff :=
  | EPut (b : block)
  | ERemove (id : N)
  | EMerge (b : block) (ids : list N)
  | EAppend (r : logrec)
  | EFlush
  | ETrunc.

  Definition expand (e : eff) : list eff :=
    match e with
    | EMerge b ids => EPut b :: map ERemove ids
    | _ => [e]
    end.

  (** Directory content, log file content, and the log records still buffered in the process. *)
  Record world := mk_world { w_files : list block; w_log : list logrec; w_pend : list logrec }.

  Definition put_file (b : block) (fs : list block) : list block :=
    filter (fun x => negb (b_id x =? b_id b)) fs ++ [b].
  Definition remove_file (id : N) (fs : list block) : list block :=
    filter (fun x => negb (b_id x =? id)) fs.

  Definition apply_eff (w : world) (e : eff) : world :=
    match e with
    | EPut b => mk_world (put_file b (w_files w)) (w_log w) (w_pend w)
    | ERemove id => mk_world (remove_file id (w_files w)) (w_log w) (w_pend w)
    | EMerge b ids => mk_world (fold_left (fun fs id => remove_file id fs) ids (put_file b (w_files w))) (w_log w) (w_pend w)
    | EAppend r => mk_world (w_files w) (w_log w) (w_pend w ++ [r])
    | EFlush => mk_world (w_files w) (w_log w ++ w_pend w) []
    | ETrunc => mk_world (w_files w) [] []
    end.
  Definition apply_effs (w : world) (es : list eff) : world := fold_left apply_eff es w.

  (** src/DataBase.cpp:257-268 (Table::insert) *)
  Definition t_insert (k : K) (v : V) (t : table) : table * list eff :=
    (insert_entry (t_cur t) k v t, [EAppend (LEntry (t_cur t) k v)]).

  (** src/DataBase.cpp:440-488: one block in revert: removed, rewritten or kept *)
  Definition revert_block (n : N) (b : block) : option block * list eff :=
    if n <=? b_min b then (None, [ERemove (b_id b)])
    else if n <=? b_max b then
      let es := filter (fun e => ever e <? n) (b_entries b) in
      let nb := mk_block (b_id b) (b_level b) (b_min b) (max_ver es) es (mk_index None 0 es) in
      (Some nb, [EPut nb])
    else (Some b, []).

  Fixpoint revert_blocks (n : N) (bs : list block) : list block * list eff :=
    match bs with
    | [] => ([], [])
    | b :: bs' =>
      let (ob, e1) := revert_block n b in
      let (bs2, e2) := revert_blocks n bs' in
      (match ob with Some nb => nb :: bs2 | None => bs2 end, e1 ++ e2)
    end.

  (** src/DataBase.cpp:499-513: repair of the memory index after dropping versions *)
  Definition revert_idx (n : N) (mem : list entry) (idx : list (K * (V * N))) : list (K * (V * N)) :=
    flat_map (fun p : K * (V * N) =>
      let '(k, (v, ver)) := p in
      if n <=? ver then
        match alower vcmp (k, u32max) mem with
        | e :: _ => if keqb (ekey e) k then [(k, (evl e, ever e))] else []
        | [] => []
        end
      else [p]) idx.

  (** src/DataBase.cpp:421-516 (Table::revert); [None] is the exception of lines 427-429 *)
  Definition t_revert (n : N) (t : table) : option (table * list eff) :=
    if t_cur t <? n then None
    else
      let (bs, ebs) := revert_blocks n (t_blocks t) in
      let mem := filter (fun e => ever e <? n) (t_mem t) in
      Some (mk_table n (N.min (t_last_flush t) n) (t_next_id t) bs mem (revert_idx n mem (t_idx t)),
            [EAppend (LRevert n); EFlush] ++ ebs).

  (** src/DataBase.cpp:597-646: k-way merge; the map holds one cursor per source, keyed by the current
      record; a cursor is the current value and the rest of the source. *)
  Definition cursor : Type := (V * list entry)%type.
  Definition adel (kv : K * N) (m : list ((K * N) * cursor)) : list ((K * N) * cursor) :=
    filter (fun p => match vcmp (fst p) kv with Eq => false | _ => true end) m.
  Fixpoint merge_init (bs : list block) (m : list ((K * N) * cursor)) : list ((K * N) * cursor) :=
    match bs with
    | [] => m
    | b :: bs' =>
      merge_init bs' (match b_entries b with
                      | [] => m
                      | e :: es => aset vcmp (fst e) (snd e, es) m
                      end)
    end.
  Fixpoint merge_loop (fuel : nat) (m : list ((K * N) * cursor)) : option (list entry) :=
    match m with
    | [] => Some []
    | (kv, (v, rest)) :: _ =>
      match fuel with
      | O => None
      | S fuel' =>
        let m1 := match rest with
                  | [] => m
                  | e :: es => aset vcmp (fst e) (snd e, es) m
                  end in
        match merge_loop fuel' (adel kv m1) with
        | Some out => Some ((kv, v) :: out)
        | None => None
        end
      end
    end.

  (** src/DataBase.cpp:582-650 (Table::rewrite); the level check (589-592) holds by selection *)
  Definition rewrite_blocks (id level : N) (bs : list block) : option block :=
    match merge_loop (S (list_sum (map (fun b => length (b_entries b)) bs))) (merge_init bs []) with
    | Some es => Some (make_block id level es)
    | None => None
    end.

  (** src/DataBase.cpp:657-677: the first run of more than level_factor blocks of one level.
      Result: blocks before, the first level_factor blocks of the run, the remaining blocks, the level *)
  Fixpoint select (lf : nat) (pre sel : list block) (level : N) (bs : list block)
    : option (list block * list block * list block * N) :=
    match bs with
    | [] => None
    | b :: bs' =>
      if (match sel with [] => true | _ => b_level b =? level end) then
        if Nat.ltb lf (length (sel ++ [b])) then Some (pre, sel, b :: bs', level)
        else select lf pre (sel ++ [b]) (b_level b) bs'
      else select lf (pre ++ sel) [b] (b_level b) bs'
    end.

  (** src/DataBase.cpp:652-699 (Table::check_rewrite) on the block list and next_block_id;
      [None]: fuel exhausted or error (shown unreachable) *)
  Fixpoint check_rewrite (fuel : nat) (lf : nat) (next : N) (bs : list block)
    : option (list block * N * list eff) :=
    if Nat.leb lf 1 then Some (bs, next, [])
    else
      match select lf [] [] 0 bs with
      | None => Some (bs, next, [])
      | Some (pre, sel, post, level) =>
        match fuel with
        | O => None
        | S fuel' =>
          match rewrite_blocks next (level + 1) sel with
          | None => None
          | Some nb =>
            match check_rewrite fuel' lf (next + 1) (pre ++ nb :: post) with
            | None => None
            | Some (bs2, next2, es) => Some (bs2, next2, EMerge nb (map b_id sel) :: es)
            end
          end
        end
      end.

  Definition t_check_rewrite (lf : nat) (t : table) : option (table * list eff) :=
    match check_rewrite (S (length (t_blocks t))) lf (t_next_id t) (t_blocks t) with
    | None => None
    | Some (bs, next, es) => Some (mk_table (t_cur t) (t_last_flush t) next bs (t_mem t) (t_idx t), es)
    end.

  (** src/DataBase.cpp:518-580 (Table::flush) *)
  Definition t_flush (lf : nat) (t : table) : option (table * list eff) :=
    match t_mem t with
    | [] =>
      Some (mk_table (t_cur t) (t_cur t) (t_next_id t) (t_blocks t) (t_mem t) (t_idx t),
            [ETrunc; EAppend (LReset (t_cur t))])
    | _ =>
      let b := make_block (t_next_id t) 0 (t_mem t) in
      let t1 := mk_table (t_cur t) (t_cur t) (t_next_id t + 1) (t_blocks t ++ [b]) [] [] in
      match t_check_rewrite lf t1 with
      | None => None
      | Some (t2, es) => Some (t2, EPut b :: ETrunc :: es)
      end
    end.

  (** src/DataBase.cpp:388-412 (Table::commit); [do_fl] is the flush decision of [do_flush].
      [None]: the exceptions of lines 390-395 *)
  Definition t_commit (lf : nat) (n : N) (do_fl : bool) (t : table) : option (table * list eff) :=
    if (n =? u32max) || (n <=? t_cur t) then None
    else
      let t1 := mk_table n (t_last_flush t) (t_next_id t) (t_blocks t) (t_mem t) (t_idx t) in
      let e1 := [EAppend (LCommit n); EFlush] in
      if do_fl then
        match t_flush lf t1 with
        | None => None
        | Some (t2, e2) => Some (t2, e1 ++ e2)
        end
      else Some (t1, e1).

  (** src/DataBase.cpp:152-158: std::sort of the loaded blocks: min_version ascending, then level descending
      (insertion sort; std::sort leaves the order of full ties unspecified) *)
  Definition block_le (a b : block) : bool :=
    if b_min a =? b_min b then b_level b <=? b_level a else b_min a <? b_min b.
  Fixpoint insert_block (b : block) (bs : list block) : list block :=
    match bs with
    | [] => [b]
    | b' :: bs' => if block_le b b' then b :: bs else b' :: insert_block b bs'
    end.
  Definition sort_blocks (bs : list block) : list block := fold_right insert_block [] bs.

  (** src/DataBase.cpp:160-170: drop blocks overlapping their predecessor in the sorted list
      (the predecessor may itself have been dropped) *)
  Fixpoint load_blocks (prev : option N) (bs : list block) : list block * list eff :=
    match bs with
    | [] => ([], [])
    | b :: bs' =>
      let (l, es) := load_blocks (Some (b_max b)) bs' in
      if (match prev with None => true | Some pm => pm <? b_min b end) then (b :: l, es)
      else (l, ERemove (b_id b) :: es)
    end.

  Definition last_version (bs : list block) : N := fold_left (fun _ b => b_max b + 1) bs 0.

  (** src/DataBase.cpp:176-206: replay of the write log on top of the block versions *)
  Record replay := mk_replay { r_cur : N; r_entries : list entry; r_first : bool; r_last_flush : N }.
  Definition replay_rec (minv : N) (r : replay) (x : logrec) : replay :=
    match x with
    | LCommit n | LReset n =>
      mk_replay n (r_entries r) false (if r_first r then n else r_last_flush r)
    | LRevert n =>
      mk_replay n (filter (fun e => ever e <? n) (r_entries r)) (r_first r) (r_last_flush r)
    | LEntry ver k v =>
      if minv <=? ver then mk_replay (r_cur r) (r_entries r ++ [((k, ver), v)]) (r_first r) (r_last_flush r)
      else r
    end.
  Definition replay_log (minv : N) (log : list logrec) : replay :=
    fold_left (replay_rec minv) log (mk_replay minv [] true minv).

  (** the multimap of lines 182-183 iterated in version order, equal versions in insertion order *)
  Fixpoint insert_ver (e : entry) (es : list entry) : list entry :=
    match es with
    | [] => [e]
    | x :: es' => if ever e <=? ever x then e :: es else x :: insert_ver e es'
    end.
  Definition sort_ver (es : list entry) : list entry := fold_right insert_ver [] es.

  (** src/DataBase.cpp:115-227 (constructor): open the table from what is on disk *)
  Definition t_open (lf : nat) (files : list block) (log : list logrec) : option (table * list eff) :=
    let (bs, e1) := load_blocks None (sort_blocks files) in
    let minv := last_version bs in
    let r := replay_log minv log in
    let next := fold_left (fun m b => N.max m (b_id b + 1)) files 0 in
    let t0 := mk_table (r_cur r) (r_last_flush r) next bs [] [] in
    let t1 := fold_left (fun t e => insert_entry (ever e) (ekey e) (evl e) t) (sort_ver (r_entries r)) t0 in
    match t_revert (r_cur r) t1 with
    | None => None
    | Some (t2, e2) =>
      match t_check_rewrite lf t2 with
      | None => None
      | Some (t3, e3) => Some (t3, e1 ++ e2 ++ e3)
      end
    end.

  (** The public write API. [OCommit n fl]: commit(n), followed by flush() when [fl] (auto flush, or
      DataBase::commit lines 1021-1032). [OFlush]: flush(). *)
  Inductive op :=
  | OInsert (k : K) (v : V)
  | OCommit (n : N) (fl : bool)
  | ORevert (n : N)
  | OFlush.

  Definition step (lf : nat) (o : op) (t : table) : option (table * list eff) :=
    match o with
    | OInsert k v => Some (t_insert k v t)
    | OCommit n fl => t_commit lf n fl t
    | ORevert n => t_revert n t
    | OFlush => t_flush lf t
    end.

  (** A running process and its files. *)
  Record sys := mk_sys { s_tab : table; s_world : world }.

  (** The files right after a process death: a prefix of the buffered log records may have reached the file. *)
  Definition crash_disk (w : world) (n : nat) : list block * list logrec :=
    (w_files w, w_log w ++ firstn n (w_pend w)).

  (** Events of a history. A failing call (exception) leaves everything unchanged. [EvCrash o m n opens]:
      the process dies during call [o] ([None]: between calls) after the first [m] file system effects
      of the call, with [n] of the buffered log records written out; then the table is opened again,
      where each element [(m', n')] of [opens] is one more process death during opening. *)
  Inductive event :=
  | EvOp (o : op)
  | EvCrash (o : option op) (m n : nat) (opens : list (nat * nat)).

  Definition open_sys (lf : nat) (d : list block * list logrec) : option sys :=
    match t_open lf (fst d) (snd d) with
    | None => None
    | Some (t, es) => Some (mk_sys t (apply_effs (mk_world (fst d) (snd d) []) es))
    end.

  Fixpoint reopen (lf : nat) (d : list block * list logrec) (opens : list (nat * nat)) : option sys :=
    match opens with
    | [] => open_sys lf d
    | (m, n) :: opens' =>
      match t_open lf (fst d) (snd d) with
      | None => None
      | Some (_, es) =>
        reopen lf (crash_disk (apply_effs (mk_world (fst d) (snd d) []) (firstn m es)) n) opens'
      end
    end.

  Definition op_effs (lf : nat) (o : option op) (t : table) : list eff :=
    match o with
    | None => []
    | Some o => match step lf o t with Some (_, es) => es | None => [] end
    end.

  Definition sys_step (lf : nat) (s : sys) (ev : event) : option sys :=
    match ev with
    | EvOp o =>
      match step lf o (s_tab s) with
      | None => Some s
      | Some (t, es) => Some (mk_sys t (apply_effs (s_world s) es))
      end
    | EvCrash o m n opens =>
      reopen lf (crash_disk (apply_effs (s_world s) (firstn m (op_effs lf o (s_tab s)))) n) opens
    end.

  Fixpoint sys_run (lf : nat) (s : sys) (evs : list event) : option sys :=
    match evs with
    | [] => Some s
    | ev :: evs' =>
      match sys_step lf s ev with
      | None => None
      | Some s' => sys_run lf s' evs'
      end
    end.

  (** An empty directory opened for the first time. *)
  Definition init_sys (lf : nat) : option sys := open_sys lf ([], []).
End Db.

(** src/DataBase.cpp:105-111 (Table::default_comparator): length first, then memcmp *)
Definition default_cmp (x y : list N) : comparison :=
  match Nat.compare (length x) (length y) with
  | Eq => bytescmp x y
  | c => c
  end.
