(** Reading the storage of contracts from the node, at any height.
    Models /repo/src/vm/StorageDB.cpp:28-62, 88-118, 155-213 (with heights) and /repo/src/Node_api.cpp:788-886.
    Keys, encoding and decoding of variables are those of StorModel.v. *)
Require Import List Arith NArith ZArith Bool.
From Verif Require Import BytesLib OrdLib VarModel EngineModel StorModel.
Import List ListNotations.
Open Scope N_scope.

(** A table as C01 proves it to be: all writes with the version they were made at, the last one first.
    Table::find(key, max_version) (src/DataBase.cpp:281-314) gives the last one of the key that is not newer than asked. *)
Definition row : Type := ((bytes * N) * bytes)%type.
Definition vtab := list row.
Definition r_key (e : row) : bytes := fst (fst e).
Definition r_ver (e : row) : N := snd (fst e).
Definition vfind (t : vtab) (k : bytes) (mv : N) : option bytes :=
  match List.find (fun e => addr_eqb k (r_key e) && (r_ver e <=? mv)) t with Some e => Some (snd e) | None => None end.
(** The keys in the order of Table::Iterator (src/DataBase.cpp:905-984): each key once, whatever its versions *)
Definition vkeys (t : vtab) : list bytes := map fst (items bytescmp (map (fun e => (r_key e, tt)) t)).
(** Iterator::seek(key): the first key that is not smaller *)
Fixpoint seek (k : bytes) (l : list bytes) : list bytes :=
  match l with
  | [] => []
  | k' :: l' => match bytescmp k' k with Lt => seek k l' | _ => l end
  end.
(** max_version of Table::find when no height is given: uint32_t(-1) *)
Definition LATEST : N := 4294967295.

(** The three tables of StorageDB.h, all with the version of the data base *)
Record vdb := mk_vdb { v_ver : N; v_tab : vtab; v_ent : vtab; v_idx : vtab }.
Definition vdb_empty := mk_vdb 0 [] [] [].
(** a write by a contract, as the last cache hands it over (StorageCache::commit, C25 and StorModel.v) *)
Inductive write := WVar (c : addr) (a : N) (v : svar) | WEnt (c : addr) (a k : N) (v : svar).
(** src/vm/StorageDB.cpp:120-139 *)
Definition do_write (d : vdb) (w : write) : vdb :=
  match w with
  | WVar c a v =>
    mk_vdb (v_ver d) (((get_key c a, v_ver d), serialize (var_of_svar v) false true) :: v_tab d) (v_ent d)
           (if f_key (sv_fl v) then ((write_index_key c (sv_val v), v_ver d), le_bytes 8 a) :: v_idx d else v_idx d)
  | WEnt c a k v => mk_vdb (v_ver d) (v_tab d) (((write_entry_key c a k, v_ver d), serialize (var_of_svar v) false true) :: v_ent d) (v_idx d)
  end.
(** src/Node.cpp:1115-1152 (apply): what the block wrote, then db->commit(height + 1).  The height of a block is the version. *)
Definition apply_block (d : vdb) (ws : list write) : vdb :=
  let d := fold_left do_write ws d in mk_vdb (v_ver d + 1) (v_tab d) (v_ent d) (v_idx d).
(** src/Node.cpp:1326 (revert): db->revert(height) removes all that is not older.  [None]: no such version *)
Definition before (n : N) (t : vtab) : vtab := filter (fun e => r_ver e <? n) t.
Definition revert_db (d : vdb) (n : N) : option vdb :=
  if v_ver d <? n then None else Some (mk_vdb n (before n (v_tab d)) (before n (v_ent d)) (before n (v_idx d))).
Inductive op := Block (ws : list write) | Revert (height : N).
Definition step (d : vdb) (o : op) : option vdb :=
  match o with Block ws => Some (apply_block d ws) | Revert n => revert_db d n end.
Fixpoint run (d : vdb) (l : list op) : option vdb :=
  match l with [] => Some d | o :: l => match step d o with Some d => run d l | None => None end end.

(** src/vm/StorageDB.cpp:98-118.  [None]: an exception while decoding; [Some None]: nullptr *)
Definition load (r : option bytes) : option (option svar) :=
  match r with Some data => match load_var data with Some v => Some (Some v) | None => None end | None => Some None end.
Definition read_ex (d : vdb) (c : addr) (a : N) (height : N) : option (option svar) := load (vfind (v_tab d) (get_key c a) height).
Definition read_entry_ex (d : vdb) (c : addr) (a k : N) (height : N) : option (option svar) := load (vfind (v_ent d) (write_entry_key c a k) height).
(** src/vm/StorageDB.cpp:141-153: no height *)
Definition lookup (d : vdb) (c : addr) (v : val) : N :=
  match vfind (v_idx d) (write_index_key c v) LATEST with Some data => of_le (firstn 8 data) | None => 0 end.

(** src/vm/StorageDB.cpp:28-38, 51-62.  [None]: key size underflow *)
Definition read_key (k : bytes) : option (bytes * N) :=
  if (length k <? 28)%nat then None else Some (firstn 20 k, of_be (firstn 8 (skipn 20 k))).
Definition read_entry_key (k : bytes) : option (bytes * N * N) :=
  if (length k <? 36)%nat then None else Some (firstn 20 k, of_be (firstn 8 (skipn 20 k)), of_be (firstn 8 (skipn 28 k))).
(** src/vm/StorageDB.cpp:155-179 (find_range): the loop over the keys, then the values *)
Fixpoint range_keys (c : addr) (e : N) (l : list bytes) : option (list (bytes * N)) :=
  match l with
  | [] => Some []
  | k :: l => match read_key k with
              | None => None
              | Some (p, a) => if negb (addr_eqb p (firstn HASH_KEY_SIZE c)) || (e <=? a) then Some []
                               else match range_keys c e l with Some r => Some ((k, a) :: r) | None => None end
              end
  end.
Fixpoint fetch (t : vtab) (height : N) (l : list (bytes * N)) : option (list (N * svar)) :=
  match l with
  | [] => Some []
  | (k, a) :: l => match load (vfind t k height), fetch t height l with
                   | Some (Some v), Some r => Some ((a, v) :: r)
                   | Some None, Some r => Some r
                   | _, _ => None
                   end
  end.
Definition find_range (d : vdb) (c : addr) (b e height : N) : option (list (N * svar)) :=
  match range_keys c e (seek (get_key c b) (vkeys (v_tab d))) with Some ks => fetch (v_tab d) height ks | None => None end.
(** src/vm/StorageDB.cpp:181-203 (find_entries) *)
Fixpoint entry_keys (c : addr) (a : N) (l : list bytes) : option (list (bytes * N)) :=
  match l with
  | [] => Some []
  | k :: l => match read_entry_key k with
              | None => None
              | Some (p, a', x) => if negb (addr_eqb p (firstn HASH_KEY_SIZE c)) || negb (a' =? a) then Some []
                                   else match entry_keys c a l with Some r => Some ((k, x) :: r) | None => None end
              end
  end.
Definition find_entries (d : vdb) (c : addr) (a height : N) : option (list (N * svar)) :=
  match entry_keys c a (seek (write_entry_key c a 0) (vkeys (v_ent d))) with Some ks => fetch (v_ent d) height ks | None => None end.
(** src/vm/StorageDB.cpp:205-213 *)
Definition read_array (d : vdb) (c : addr) (a height : N) : option (list svar) :=
  match find_entries d c a height with Some l => Some (map snd l) | None => None end.

Section NODE.
  (** get_contract, for contracts that are executables of a binary: the fields (names and addresses, contract/Binary.vni) and the
      constants (vm_interface.cpp:57-60, engine memory below MEM_EXTERN); names are bytes *)
  Variable fields : addr -> option (list (bytes * N)).
  Variable constants : addr -> N -> option val.
  (** ChainParams::max_tx_cost, and what vm::load has used of it *)
  Variables gas_limit load_gas : N.

  (** src/Node_api.cpp:788-801: the height is not used *)
  Fixpoint read_fields (d : vdb) (c : addr) (l : list (bytes * N)) : option (list (bytes * svar)) :=
    match l with
    | [] => Some []
    | (n, a) :: l => match read_ex d c a LATEST, read_fields d c l with
                     | Some (Some v), Some r => Some ((n, v) :: r)
                     | Some None, Some r => Some r
                     | _, _ => None
                     end
    end.
  Definition read_storage (d : vdb) (c : addr) (height : N) : option (list (bytes * svar)) :=
    match fields c with Some l => read_fields d c l | None => Some [] end.
  (** src/Node_api.cpp:803-807; vm::MEM_STATIC, and uint64_t(-1) as the end *)
  Definition dump_storage (d : vdb) (c : addr) (height : N) : option (list (N * svar)) :=
    find_range d c MEM_STATIC (2 ^ 64 - 1) height.
  (** src/Node_api.cpp:809-817 *)
  Definition read_storage_var := read_ex.
  Definition read_storage_entry_var := read_entry_ex.
  (** src/Node_api.cpp:819-829 with Binary::find_field *)
  Definition read_storage_field (d : vdb) (c : addr) (name : bytes) (height : N) : option (option svar * N) :=
    match fields c with
    | Some l => match lfind addr_eqb name l with
                | Some a => match read_storage_var d c a height with Some v => Some (v, a) | None => None end
                | None => Some (None, 0)
                end
    | None => Some (None, 0)
    end.
  (** src/Node_api.cpp:831-844; and 846-854 with to_binary of the key *)
  Definition read_storage_entry_by (d : vdb) (c : addr) (name : bytes) (key : val) (height : N) : option (option svar * N * N) :=
    match read_storage_field d c name height with
    | None => None
    | Some (None, _) => Some (None, 0, 0)
    | Some (Some var, fa) =>
      let address := match sv_val var with VRef r => r | _ => fa end in
      let entry := lookup d c key in
      if entry =? 0 then Some (None, 0, 0)
      else match read_storage_entry_var d c address entry height with Some v => Some (v, address, entry) | None => None end
    end.
  (** src/Node_api.cpp:856-859 *)
  Definition read_storage_array := read_array.
  (** Engine::read (src/vm/Engine.cpp:479-500) for the keys: constants first, else the storage through StorageProxy::read
      (src/vm/StorageProxy.cpp:22-62), which hides what is deleted, charges gas and throws when there is none left.  No height *)
  Definition key_value (d : vdb) (c : addr) (gas : N) (k : N) : option (N * option val) :=
    match constants c k with
    | Some v => Some (gas, Some v)
    | None =>
      if k <? MEM_STATIC then Some (gas, None)
      else match read_ex d c k LATEST with
           | None => None
           | Some v =>
             let v := match v with Some v => if f_deleted (sv_fl v) then None else Some v | None => None end in
             let gas := gas + STOR_READ_COST + match v with Some v => val_bytes (sv_val v) | None => 0 end / 32 * STOR_READ_32_BYTE_COST in
             if gas_limit <? gas then None else Some (gas, match v with Some v => Some (sv_val v) | None => None end)
           end
    end.
  Fixpoint map_entries (d : vdb) (c : addr) (gas : N) (l : list (N * svar)) : option (list (val * svar)) :=
    match l with
    | [] => Some []
    | (k, v) :: l => match key_value d c gas k with
                     | None => None
                     | Some (gas, kv) => match map_entries d c gas l with
                                         | None => None
                                         | Some r => Some (match kv with Some x => (x, v) :: r | None => r end)
                                         end
                     end
    end.
  (** src/Node_api.cpp:861-877.  The result as a list; the code puts it into a std::map, where one of two equal keys would be lost *)
  Definition read_storage_map (d : vdb) (c : addr) (a height : N) : option (list (val * svar)) :=
    match fields c with
    | None => Some []
    | Some _ => match find_entries d c a height with Some l => map_entries d c load_gas l | None => None end
    end.
End NODE.
