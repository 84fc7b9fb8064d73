(** Storage of contracts: the database and the stack of caches in front of it.
    Models /repo/src/vm/StorageDB.cpp, StorageRAM.cpp, StorageCache.cpp.  One layer of [StorageRAM] is in EngineModel.v. *)
Require Import List Arith NArith ZArith Bool.
From Verif Require Import BytesLib OrdLib VarModel EngineModel.
Import ListNotations.
Open Scope N_scope.

(** include/mmx/vm/var_t.h:41-45: the flags of a variable as they are stored *)
Definition fl_bits (f : fl) : N :=
  (if f_dirty f then 1 else 0) + (if f_const f then 2 else 0) + (if f_stored f then 4 else 0)
  + (if f_deleted f then 8 else 0) + (if f_key f then 16 else 0).
Definition fl_of (n : N) : fl := mk_fl (N.testbit n 0) (N.testbit n 1) (N.testbit n 2) (N.testbit n 3) (N.testbit n 4).
Definition var_of_svar (v : svar) : var := {| v_rc := sv_rc v; v_flags := fl_bits (sv_fl v); v_val := sv_val v |}.
Definition svar_of_var (v : var) : svar := mk_svar (v_rc v) (fl_of (v_flags v)) (v_val v).

(** The tables of StorageDB.h.  A table is what C01 proves it to be: a map from keys to the value inserted last.
    [d_bal]: the balance table of the node, read through [read_balance] (src/Node.cpp:201-207). *)
Record sdb := mk_sdb { d_tab : list (bytes * bytes); d_ent : list (bytes * bytes); d_idx : list (bytes * bytes);
                       d_bal : addr -> addr -> option N }.
(** src/vm/StorageDB.cpp:17-26 *)
Definition HASH_KEY_SIZE := 20%nat.
Definition get_key (c : addr) (dst : N) : bytes := firstn HASH_KEY_SIZE c ++ be_bytes 8 dst.
(** src/vm/StorageDB.cpp:40-49 *)
Definition write_entry_key (c : addr) (dst key : N) : bytes := firstn HASH_KEY_SIZE c ++ be_bytes 8 dst ++ be_bytes 8 key.
(** src/vm/StorageDB.cpp:64-71 *)
Definition write_index_key (c : addr) (v : val) : bytes :=
  c ++ serialize {| v_rc := 0; v_flags := 0; v_val := v |} false false.
(** src/vm/StorageDB.cpp:98-118 with 88-96.  The two exceptions (a value that cannot be decoded, or with bytes missing) give
    [None] as well; the theorems show that a value which was written is read. *)
Definition load_var (data : bytes) : option svar :=
  match deserialize (fun i => nth i data 0) (length data) false true with Some (v, _) => Some (svar_of_var v) | None => None end.
Definition sdb_read (d : sdb) (c : addr) (a : N) : option svar :=
  match lfind addr_eqb (get_key c a) (d_tab d) with Some data => load_var data | None => None end.
Definition sdb_entry (d : sdb) (c : addr) (a k : N) : option svar :=
  match lfind addr_eqb (write_entry_key c a k) (d_ent d) with Some data => load_var data | None => None end.
(** src/vm/StorageDB.cpp:141-153; memcpy of eight bytes on a little endian machine *)
Definition sdb_lookup (d : sdb) (c : addr) (v : val) : N :=
  match lfind addr_eqb (write_index_key c v) (d_idx d) with Some data => of_le (firstn 8 data) | None => 0 end.
(** src/vm/StorageDB.cpp:120-130 *)
Definition sdb_write (d : sdb) (c : addr) (a : N) (v : svar) : sdb :=
  mk_sdb ((get_key c a, serialize (var_of_svar v) false true) :: d_tab d) (d_ent d)
         (if f_key (sv_fl v) then (write_index_key c (sv_val v), le_bytes 8 a) :: d_idx d else d_idx d) (d_bal d).
(** src/vm/StorageDB.cpp:132-139 *)
Definition sdb_write_entry (d : sdb) (c : addr) (a k : N) (v : svar) : sdb :=
  mk_sdb (d_tab d) ((write_entry_key c a k, serialize (var_of_svar v) false true) :: d_ent d) (d_idx d) (d_bal d).
(** src/vm/StorageDB.cpp:215-229: [write_balance] is never set (src/Node.cpp:199-207), so nothing is written *)
Definition sdb_set_balance (d : sdb) (c cur : addr) (n : N) : sdb := d.

(** a database, or a cache in front of a storage: include/mmx/vm/StorageCache.h *)
Inductive storage := SDb (d : sdb) | SCache (r : ram) (backend : storage).

(** src/vm/StorageCache.cpp:23-45 *)
Fixpoint s_read (s : storage) (c : addr) (a : N) : option svar :=
  match s with
  | SDb d => sdb_read d c a
  | SCache r b => match ram_read r c a with Some v => Some v | None => s_read b c a end
  end.
Fixpoint s_entry (s : storage) (c : addr) (a k : N) : option svar :=
  match s with
  | SDb d => sdb_entry d c a k
  | SCache r b => match ram_read_entry r c a k with Some v => Some v | None => s_entry b c a k end
  end.
Fixpoint s_lookup (s : storage) (c : addr) (v : val) : N :=
  match s with
  | SDb d => sdb_lookup d c v
  | SCache r b => if ram_lookup r c v =? 0 then s_lookup b c v else ram_lookup r c v
  end.
(** src/vm/StorageCache.cpp:66-76: a balance that was found is kept, in every cache on the way *)
Fixpoint s_get_balance (s : storage) (c cur : addr) : option N * storage :=
  match s with
  | SDb d => (d_bal d c cur, SDb d)
  | SCache r b =>
    match ram_balance r c cur with
    | Some n => (Some n, SCache r b)
    | None => let '(n, b) := s_get_balance b c cur in
              (n, SCache (match n with Some n => ram_set_balance r c cur n | None => r end) b)
    end
  end.
(** [None]: an exception *)
Definition s_write (s : storage) (c : addr) (a : N) (v : svar) : option storage :=
  match s with
  | SDb d => Some (SDb (sdb_write d c a v))
  | SCache r b => match ram_write r c a v with Some r => Some (SCache r b) | None => None end
  end.
Definition s_write_entry (s : storage) (c : addr) (a k : N) (v : svar) : storage :=
  match s with
  | SDb d => SDb (sdb_write_entry d c a k v)
  | SCache r b => SCache (ram_write_entry r c a k v) b
  end.
Definition s_set_balance (s : storage) (c cur : addr) (n : N) : storage :=
  match s with
  | SDb d => SDb (sdb_set_balance d c cur n)
  | SCache r b => SCache (ram_set_balance r c cur n) b
  end.

(** The std::map members of StorageRAM.h:61-66 in their order, each key once with its last value (the model keeps all writes) *)
Definition items {K V} (cmp : K -> K -> comparison) (l : list (K * V)) : list (K * V) :=
  fold_right (fun e acc => aset cmp (fst e) (snd e) acc) [] l.
Definition mem_cmp := lexcmp bytescmp N.compare.
Definition ent_cmp := lexcmp bytescmp (lexcmp N.compare N.compare).
Definition bal_cmp := lexcmp bytescmp bytescmp.
(** src/vm/StorageCache.cpp:47-64: the three loops *)
Fixpoint write_all (l : list ((addr * N) * svar)) (b : storage) : option storage :=
  match l with
  | [] => Some b
  | ((c, a), v) :: l => match s_write b c a v with Some b => write_all l b | None => None end
  end.
Definition write_entries (l : list ((addr * (N * N)) * svar)) (b : storage) : storage :=
  fold_left (fun b e => s_write_entry b (fst (fst e)) (fst (snd (fst e))) (snd (snd (fst e))) (snd e)) l b.
Definition set_balances (l : list ((addr * addr) * N)) (b : storage) : storage :=
  fold_left (fun b e => s_set_balance b (fst (fst e)) (snd (fst e)) (snd e)) l b.
Definition commit_into (r : ram) (b : storage) : option storage :=
  match write_all (items mem_cmp (r_mem r)) b with
  | Some b => Some (set_balances (items bal_cmp (r_bal r)) (write_entries (items ent_cmp (r_ent r)) b))
  | None => None
  end.

(** What users of the storage do.  A new cache is put in front, and given up with or without [commit]:
    created at src/Node_validate.cpp:72 and 634, committed at src/Node_validate.cpp:943 and src/Node.cpp:1115. *)
Inductive sop :=
  | OWrite (c : addr) (a : N) (v : svar) | OEntry (c : addr) (a k : N) (v : svar) | OBalance (c cur : addr) (n : N)
  | OGet (c cur : addr) | OOpen | OCommit | ODrop.
Definition s_do (o : sop) (s : storage) : option storage :=
  match o with
  | OWrite c a v => s_write s c a v
  | OEntry c a k v => Some (s_write_entry s c a k v)
  | OBalance c cur n => Some (s_set_balance s c cur n)
  | OGet c cur => Some (snd (s_get_balance s c cur))
  | OOpen => Some (SCache ram_empty s)
  | OCommit => match s with SCache r b => commit_into r b | SDb _ => None end
  | ODrop => match s with SCache _ b => Some b | SDb _ => None end
  end.
Fixpoint s_run (l : list sop) (s : storage) : option storage :=
  match l with [] => Some s | o :: l => match s_do o s with Some s => s_run l s | None => None end end.
