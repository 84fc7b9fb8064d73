(** The contract virtual machine.
    Models /repo/src/vm/Engine.cpp, /repo/include/mmx/vm/Engine.h, /repo/src/vm/StorageProxy.cpp,
    /repo/src/vm/StorageCache.cpp, /repo/src/vm/StorageRAM.cpp and the parts of /repo/src/vm_interface.cpp that set an engine up.

    Simplifications, used throughout:
    - error messages, profiling, tracing and debug dumps are not modelled; a C++ exception is [Throw], and carries the state
      because the gas used so far is charged to the transaction also after a failure;
    - a [unique_ptr] in a map is never observed as null (it is null only between [memory[dst]] and the assignment that
      follows), so a null entry and a missing entry are the same thing here;
    - 64-bit gas and 32-bit reference counters do not wrap: every instruction costs at least 20 gas and the gas limit is
      at most [max_tx_cost], 25 000 000;
    - arguments of a C++ call are evaluated from left to right (the order is unspecified in C++);
    - uint256_t / uint128_t arithmetic is modulo 2^256, as in the library (not part of the repository);
    - conversions done by libraries outside the repository are parameters. *)
Require Import List Arith NArith ZArith Bool.
From Verif Require Import BytesLib OrdLib VarModel InstrModel.
Import ListNotations.
Open Scope N_scope.

(** include/mmx/vm/Engine.h:30-60 *)
Definition INSTR_COST := 20.
Definition INSTR_CALL_COST := 30.
Definition INSTR_MUL_128_COST := 50.
Definition INSTR_MUL_256_COST := 200.
Definition INSTR_DIV_64_COST := 50.
Definition INSTR_DIV_128_COST := 1000.
Definition INSTR_DIV_256_COST := 5000.
Definition WRITE_COST := 50.
Definition WRITE_32_BYTE_COST := 30.
Definition STOR_READ_COST := 2000.
Definition STOR_WRITE_COST := 2000.
Definition STOR_READ_32_BYTE_COST := 50.
Definition STOR_WRITE_BYTE_COST := 50.
Definition CONV_STRING_UINT_CHAR_COST := 200.
Definition CONV_UINT_32_STRING_COST := 500.
Definition CONV_UINT_64_STRING_COST := 1000.
Definition CONV_UINT_128_STRING_COST := 25000.
Definition CONV_UINT_256_STRING_COST := 250000.
Definition CONV_STRING_BECH32_COST := 1000.
Definition CONV_BECH32_STRING_COST := 1000.
Definition SHA256_BLOCK_COST := 2000.
Definition ECDSA_VERIFY_COST := 20000.
Definition MAX_KEY_BYTES := 4096.
Definition MAX_VALUE_BYTES := 1048576.
Definition MAX_CALL_RECURSION : nat := 1000.
Definition MAX_ERASE_RECURSION : nat := 100.
Definition MAX_COPY_RECURSION : nat := 100.
(** include/mmx/vm/Engine.h:63-78 *)
Definition EXTERN_HEIGHT := 0.
Definition EXTERN_TXID := 1.
Definition EXTERN_USER := 2.
Definition EXTERN_DEPOSIT := 4.
Definition EXTERN_ADDRESS := 5.
Definition EXTERN_NETWORK := 6.
Definition GLOBAL_NEXT_ALLOC := 1.
Definition GLOBAL_DYNAMIC_START := 0x1000.
(** include/mmx/vm/var_t.h:30-37 *)
Definition SEG_SIZE := 0x4000000.
Definition STACK_SIZE := 16 * SEG_SIZE.
Definition MEM_EXTERN := SEG_SIZE.
Definition MEM_STACK := MEM_EXTERN + SEG_SIZE.
Definition MEM_STATIC := MEM_STACK + STACK_SIZE.
Definition MEM_HEAP := 2 ^ 32.
(** src/vm/Engine.cpp:20 *)
Definition NEXT_ALLOC := MEM_HEAP + GLOBAL_NEXT_ALLOC.
Definition MAX256 := 2 ^ 256 - 1.

(** include/mmx/vm/var_t.h:41-45 *)
Record fl := mk_fl { f_dirty : bool; f_const : bool; f_stored : bool; f_deleted : bool; f_key : bool }.
Definition no_fl := mk_fl false false false false false.
Definition set_dirty b f := mk_fl b (f_const f) (f_stored f) (f_deleted f) (f_key f).
Definition set_const b f := mk_fl (f_dirty f) b (f_stored f) (f_deleted f) (f_key f).
Definition set_stored b f := mk_fl (f_dirty f) (f_const f) b (f_deleted f) (f_key f).
Definition set_deleted b f := mk_fl (f_dirty f) (f_const f) (f_stored f) b (f_key f).
Definition set_key b f := mk_fl (f_dirty f) (f_const f) (f_stored f) (f_deleted f) b.

(** A variable in memory.  [o_id] identifies the C++ object: a new object gets a new number, so that a C++ reference that is
    used after the object was destroyed can be told from one that is still valid. *)
Record obj := mk_obj { o_id : N; o_rc : N; o_fl : fl; o_val : val }.

(** include/mmx/vm/var_t.h:305-321 [num_bytes]; null counts 0 *)
Definition val_bytes (v : val) : N :=
  match v with
  | VRef _ => 8 | VUint _ => 32 | VString d | VBinary d => N.of_nat (length d) | VArray _ _ => 12 | VMap _ => 8 | _ => 0
  end.

(** src/vm/StorageRAM.cpp: the maps of one layer.  A stored variable keeps reference count and flags ([clone]). *)
Record svar := mk_svar { sv_rc : N; sv_fl : fl; sv_val : val }.
Definition addr := bytes.
Record ram := mk_ram { r_mem : list ((addr * N) * svar); r_ent : list ((addr * (N * N)) * svar);
                       r_keys : list ((addr * val) * N); r_bal : list ((addr * addr) * N) }.
Definition ram_empty := mk_ram [] [] [] [].
Definition addr_eqb (a b : addr) : bool := match bytescmp a b with Eq => true | _ => false end.
Fixpoint lfind {K V} (eqb : K -> K -> bool) (k : K) (l : list (K * V)) : option V :=
  match l with [] => None | (k', v) :: l => if eqb k k' then Some v else lfind eqb k l end.
Definition mem_eqb (x y : addr * N) : bool := addr_eqb (fst x) (fst y) && (snd x =? snd y).
Definition ent_eqb (x y : addr * (N * N)) : bool :=
  addr_eqb (fst x) (fst y) && (fst (snd x) =? fst (snd y)) && (snd (snd x) =? snd (snd y)).
Definition key_eqb (x y : addr * val) : bool := addr_eqb (fst x) (fst y) && (compare (snd x) (snd y) =? 0)%Z.
Definition bal_eqb (x y : addr * addr) : bool := addr_eqb (fst x) (fst y) && addr_eqb (snd x) (snd y).
(** src/vm/StorageRAM.cpp:19-39, 69-82, 101-114 *)
Definition ram_read (r : ram) (c : addr) (a : N) : option svar := lfind mem_eqb (c, a) (r_mem r).
Definition ram_read_entry (r : ram) (c : addr) (a k : N) : option svar := lfind ent_eqb (c, (a, k)) (r_ent r).
Definition ram_lookup (r : ram) (c : addr) (v : val) : N := match lfind key_eqb (c, v) (r_keys r) with Some a => a | None => 0 end.
Definition ram_balance (r : ram) (c cur : addr) : option N := lfind bal_eqb (c, cur) (r_bal r).
(** src/vm/StorageRAM.cpp:41-58; [None]: "cannot overwrite key" *)
Definition ram_write (r : ram) (c : addr) (a : N) (v : svar) : option ram :=
  match ram_read r c a with
  | Some old => if f_key (sv_fl old) then None
                else Some (mk_ram (((c, a), v) :: r_mem r) (r_ent r)
                                  (if f_key (sv_fl v) then ((c, sv_val v), a) :: r_keys r else r_keys r) (r_bal r))
  | None => Some (mk_ram (((c, a), v) :: r_mem r) (r_ent r)
                         (if f_key (sv_fl v) then ((c, sv_val v), a) :: r_keys r else r_keys r) (r_bal r))
  end.
(** src/vm/StorageRAM.cpp:60-67 *)
Definition ram_write_entry (r : ram) (c : addr) (a k : N) (v : svar) : ram :=
  mk_ram (r_mem r) (((c, (a, k)), v) :: r_ent r) (r_keys r) (r_bal r).
(** src/vm/StorageRAM.cpp:94-99 *)
Definition ram_set_balance (r : ram) (c cur : addr) (n : N) : ram :=
  mk_ram (r_mem r) (r_ent r) (r_keys r) (((c, cur), n) :: r_bal r).

(** What a [StorageCache] reads from when it has no entry of its own: include/mmx/vm/Storage.h *)
Record backend := mk_backend { bk_read : addr -> N -> option svar; bk_entry : addr -> N -> N -> option svar;
                               bk_lookup : addr -> val -> N; bk_balance : addr -> addr -> option N }.
(** src/vm/StorageCache.cpp:23-45, 66-76 *)
Definition cache_read (b : backend) (r : ram) (c : addr) (a : N) : option svar :=
  match ram_read r c a with Some v => Some v | None => bk_read b c a end.
Definition cache_entry (b : backend) (r : ram) (c : addr) (a k : N) : option svar :=
  match ram_read_entry r c a k with Some v => Some v | None => bk_entry b c a k end.
Definition cache_lookup (b : backend) (r : ram) (c : addr) (v : val) : N :=
  if ram_lookup r c v =? 0 then bk_lookup b c v else ram_lookup r c v.
Definition cache_balance (b : backend) (r : ram) (c cur : addr) : option N * ram :=
  match ram_balance r c cur with
  | Some n => (Some n, r)
  | None => match bk_balance b c cur with Some n => (Some n, ram_set_balance r c cur n) | None => (None, r) end
  end.

(** interface/txout_t.vni *)
Record txout := mk_txout { to_address : addr; to_currency : addr; to_amount : N; to_memo : option bytes }.

(** What the engines of one transaction share: the storage cache, and [exec_outputs] and [exec_spend_map] of
    /repo/src/Node_validate.cpp:389-397 (the sum per contract and currency is kept as a list of increments). *)
Record world := mk_world { w_ram : ram; w_outs : list txout; w_spend : list ((addr * addr) * N) }.
Definition set_w_ram r w := mk_world r (w_outs w) (w_spend w).

(** include/mmx/vm/Engine.h:83-118, 228-241: the members of [Engine].  [s_frames] has the innermost call first.
    [s_keys] is searched by value, as [std::map] with [varptr_less_t] does.  [s_fetched]: the addresses in the local
    [contract_cache] of Node_validate.cpp:510-511 that were read from the database. *)
Record st := mk_st {
  s_mem : list (N * obj); s_ent : list ((N * N) * obj); s_keys : list (val * N); s_bal : list (addr * N);
  s_frames : list (N * N); s_outs : list txout; s_mints : list txout; s_gas : N;
  s_limit : N; s_error : N; s_init : bool; s_first_alloc : bool;
  s_heap_base : N; s_next_id : N; s_code : list instr; s_contract : addr;
  s_version : N; s_ro : bool; s_fetched : list addr; s_world : world }.
Definition set_mem m s := mk_st m (s_ent s) (s_keys s) (s_bal s) (s_frames s) (s_outs s) (s_mints s) (s_gas s) (s_limit s) (s_error s) (s_init s) (s_first_alloc s) (s_heap_base s) (s_next_id s) (s_code s) (s_contract s) (s_version s) (s_ro s) (s_fetched s) (s_world s).
Definition set_ent m s := mk_st (s_mem s) m (s_keys s) (s_bal s) (s_frames s) (s_outs s) (s_mints s) (s_gas s) (s_limit s) (s_error s) (s_init s) (s_first_alloc s) (s_heap_base s) (s_next_id s) (s_code s) (s_contract s) (s_version s) (s_ro s) (s_fetched s) (s_world s).
Definition set_keys m s := mk_st (s_mem s) (s_ent s) m (s_bal s) (s_frames s) (s_outs s) (s_mints s) (s_gas s) (s_limit s) (s_error s) (s_init s) (s_first_alloc s) (s_heap_base s) (s_next_id s) (s_code s) (s_contract s) (s_version s) (s_ro s) (s_fetched s) (s_world s).
Definition set_bal m s := mk_st (s_mem s) (s_ent s) (s_keys s) m (s_frames s) (s_outs s) (s_mints s) (s_gas s) (s_limit s) (s_error s) (s_init s) (s_first_alloc s) (s_heap_base s) (s_next_id s) (s_code s) (s_contract s) (s_version s) (s_ro s) (s_fetched s) (s_world s).
Definition set_frames m s := mk_st (s_mem s) (s_ent s) (s_keys s) (s_bal s) m (s_outs s) (s_mints s) (s_gas s) (s_limit s) (s_error s) (s_init s) (s_first_alloc s) (s_heap_base s) (s_next_id s) (s_code s) (s_contract s) (s_version s) (s_ro s) (s_fetched s) (s_world s).
Definition set_outs m s := mk_st (s_mem s) (s_ent s) (s_keys s) (s_bal s) (s_frames s) m (s_mints s) (s_gas s) (s_limit s) (s_error s) (s_init s) (s_first_alloc s) (s_heap_base s) (s_next_id s) (s_code s) (s_contract s) (s_version s) (s_ro s) (s_fetched s) (s_world s).
Definition set_mints m s := mk_st (s_mem s) (s_ent s) (s_keys s) (s_bal s) (s_frames s) (s_outs s) m (s_gas s) (s_limit s) (s_error s) (s_init s) (s_first_alloc s) (s_heap_base s) (s_next_id s) (s_code s) (s_contract s) (s_version s) (s_ro s) (s_fetched s) (s_world s).
Definition set_gas m s := mk_st (s_mem s) (s_ent s) (s_keys s) (s_bal s) (s_frames s) (s_outs s) (s_mints s) m (s_limit s) (s_error s) (s_init s) (s_first_alloc s) (s_heap_base s) (s_next_id s) (s_code s) (s_contract s) (s_version s) (s_ro s) (s_fetched s) (s_world s).
Definition set_limit m s := mk_st (s_mem s) (s_ent s) (s_keys s) (s_bal s) (s_frames s) (s_outs s) (s_mints s) (s_gas s) m (s_error s) (s_init s) (s_first_alloc s) (s_heap_base s) (s_next_id s) (s_code s) (s_contract s) (s_version s) (s_ro s) (s_fetched s) (s_world s).
Definition set_error m s := mk_st (s_mem s) (s_ent s) (s_keys s) (s_bal s) (s_frames s) (s_outs s) (s_mints s) (s_gas s) (s_limit s) m (s_init s) (s_first_alloc s) (s_heap_base s) (s_next_id s) (s_code s) (s_contract s) (s_version s) (s_ro s) (s_fetched s) (s_world s).
Definition set_init m s := mk_st (s_mem s) (s_ent s) (s_keys s) (s_bal s) (s_frames s) (s_outs s) (s_mints s) (s_gas s) (s_limit s) (s_error s) m (s_first_alloc s) (s_heap_base s) (s_next_id s) (s_code s) (s_contract s) (s_version s) (s_ro s) (s_fetched s) (s_world s).
Definition set_next_id m s := mk_st (s_mem s) (s_ent s) (s_keys s) (s_bal s) (s_frames s) (s_outs s) (s_mints s) (s_gas s) (s_limit s) (s_error s) (s_init s) (s_first_alloc s) (s_heap_base s) m (s_code s) (s_contract s) (s_version s) (s_ro s) (s_fetched s) (s_world s).
Definition set_code m s := mk_st (s_mem s) (s_ent s) (s_keys s) (s_bal s) (s_frames s) (s_outs s) (s_mints s) (s_gas s) (s_limit s) (s_error s) (s_init s) (s_first_alloc s) (s_heap_base s) (s_next_id s) m (s_contract s) (s_version s) (s_ro s) (s_fetched s) (s_world s).
Definition set_fetched m s := mk_st (s_mem s) (s_ent s) (s_keys s) (s_bal s) (s_frames s) (s_outs s) (s_mints s) (s_gas s) (s_limit s) (s_error s) (s_init s) (s_first_alloc s) (s_heap_base s) (s_next_id s) (s_code s) (s_contract s) (s_version s) (s_ro s) m (s_world s).
Definition set_world m s := mk_st (s_mem s) (s_ent s) (s_keys s) (s_bal s) (s_frames s) (s_outs s) (s_mints s) (s_gas s) (s_limit s) (s_error s) (s_init s) (s_first_alloc s) (s_heap_base s) (s_next_id s) (s_code s) (s_contract s) (s_version s) (s_ro s) (s_fetched s) m.
Definition set_alloc fa hb s := mk_st (s_mem s) (s_ent s) (s_keys s) (s_bal s) (s_frames s) (s_outs s) (s_mints s) (s_gas s) (s_limit s) (s_error s) (s_init s) fa hb (s_next_id s) (s_code s) (s_contract s) (s_version s) (s_ro s) (s_fetched s) (s_world s).
Definition s_ram s := w_ram (s_world s).
Definition set_ram r s := set_world (set_w_ram r (s_world s)) s.

(** Engine.cpp:22-28, Engine.h initializers *)
Definition engine_new (contract : addr) (version limit : N) (read_only : bool) (w : world) : st :=
  mk_st [] [] [] [] [] [] [] 0 limit 0 false true (2 ^ 64 - 1) 0 [] contract version read_only [] w.

(** How a C++ call ends.  [Undefined]: undefined behaviour in C++: a destroyed object was read or written,
    or an iterator went past the end of its map.
    [Fuel]: the model's own bound was reached; the theorems show where this does not happen. *)
Inductive res (A : Type) := Ok (a : A) (s : st) | Throw (s : st) | Undefined (s : st) | Fuel.
Arguments Ok {A}. Arguments Throw {A}. Arguments Undefined {A}. Arguments Fuel {A}.
Definition M (A : Type) := st -> res A.
Definition ret {A} (a : A) : M A := fun s => Ok a s.
Definition bind {A B} (m : M A) (k : A -> M B) : M B :=
  fun s => match m s with Ok a s' => k a s' | Throw s' => Throw s' | Undefined s' => Undefined s' | Fuel => Fuel end.
Definition throw {A} : M A := fun s => Throw s.
Definition undefined {A} : M A := fun s => Undefined s.
Definition get : M st := fun s => Ok s s.
Definition modify (f : st -> st) : M unit := fun s => Ok tt (f s).
Notation "x <- m ;; k" := (bind m (fun x => k)) (at level 61, m at next level, right associativity).
Notation "m ;;; k" := (bind m (fun _ => k)) (at level 61, right associativity).
Definition require (b : bool) : M unit := if b then ret tt else throw.

(** TXFEE_OVERRUN, interface/error_code_e.vni; the number stands for the code *)
Definition TXFEE_OVERRUN := 1.
(** Engine.cpp:649-655 *)
Definition check_gas : M unit :=
  fun s => if s_limit s <? s_gas s then Throw (set_error TXFEE_OVERRUN s) else Ok tt s.
Definition add_gas (n : N) : M unit := modify (fun s => set_gas (s_gas s + n) s).

(** a variable in [memory] or in [entries] *)
Inductive loc := LMem (a : N) | LEnt (a k : N).
Definition loc_eqb (x y : loc) : bool :=
  match x, y with
  | LMem a, LMem b => a =? b
  | LEnt a k, LEnt b j => (a =? b) && (k =? j)
  | _, _ => false
  end.
Definition entcmp := lexcmp N.compare N.compare.
Definition cell (s : st) (l : loc) : option obj :=
  match l with LMem a => aget N.compare a (s_mem s) | LEnt a k => aget entcmp (a, k) (s_ent s) end.
Definition put_cell (l : loc) (o : obj) (s : st) : st :=
  match l with
  | LMem a => set_mem (aset N.compare a o (s_mem s)) s
  | LEnt a k => set_ent (aset entcmp (a, k) o (s_ent s)) s
  end.
(** in-place change of the object at [l] *)
Definition put (l : loc) (o : obj) : M unit := modify (put_cell l o).
(** a new object at [l]; the one that was there is destroyed *)
Definition put_new (l : loc) (rc : N) (f : fl) (v : val) : M N :=
  fun s => Ok (s_next_id s) (put_cell l (mk_obj (s_next_id s) rc f v) (set_next_id (s_next_id s + 1) s)).

(** A [const var_t&]: a temporary, or the object [id] found at a location *)
Inductive sref := STmp (v : val) | SRef (l : loc) (id : N).
Definition load (r : sref) : M obj :=
  match r with
  | STmp v => ret (mk_obj 0 0 no_fl v)
  | SRef l id => s <- get ;; match cell s l with
                             | Some o => if o_id o =? id then ret o else undefined
                             | None => undefined
                             end
  end.
Definition mem_ref (a : N) (o : obj) : sref := SRef (LMem a) (o_id o).
Definition ent_ref (a k : N) (o : obj) : sref := SRef (LEnt a k) (o_id o).

(** keys of the entries of container [a], in increasing order: the range of [entries] that starts at [lower_bound((a, 0))] *)
Definition entry_keys (s : st) (a : N) : list N := map (fun e => snd (fst e)) (filter (fun e => fst (fst e) =? a) (s_ent s)).

(** include/mmx/vm/var_t.h:87-113 *)
Definition obj_addref (o : obj) : obj :=
  if f_stored (o_fl o) then o else mk_obj (o_id o) (o_rc o + 1) (set_dirty true (o_fl o)) (o_val o).
Definition obj_dec (o : obj) : obj := mk_obj (o_id o) (o_rc o - 1) (set_dirty true (o_fl o)) (o_val o).
Definition obj_pin (o : obj) : obj :=
  if f_stored (o_fl o) then o
  else if o_rc o =? 0 then mk_obj (o_id o) 1 (set_dirty true (o_fl o)) (o_val o) else o.
Definition with_fl (f : fl -> fl) (o : obj) : obj := mk_obj (o_id o) (o_rc o) (f (o_fl o)) (o_val o).
Definition with_val (v : val) (o : obj) : obj := mk_obj (o_id o) (o_rc o) (o_fl o) v.

(** OPFLAG bits, include/mmx/vm/instr_t.h:20-26 *)
Definition opflag (i : instr) (bit : N) : bool := N.testbit (i_flags i) bit.
Definition REF_A := 0.
Definition REF_B := 1.
Definition REF_C := 2.
Definition REF_D := 3.
Definition HARD_FAIL := 4.
Definition CATCH_OVERFLOW := 5.
Definition BITWISE := 6.

(** Engine.cpp:1202-1216 *)
Definition is_true (v : val) : bool :=
  match v with
  | VNil | VFalse => false
  | VUint x => negb (x =? 0)
  | VString d | VBinary d => negb (N.of_nat (length d) =? 0)
  | _ => true
  end.
Definition vbool (b : bool) : val := if b then VTrue else VFalse.

(** functions of libraries outside the repository, and of other parts of it *)
Record ext := mk_ext {
  x_sha : bytes -> bytes;
  (** message, public key, signature; [None]: wrong length *)
  x_verify : bytes -> bytes -> bytes -> option bool;
  (** uint256_t::str(base), uint256_t(string, base) *)
  x_to_str : N -> N -> bytes;
  x_of_str : bytes -> N -> N;
  (** vnx::to_hex_string, vnx::from_hex_string; addr_t::to_string, addr_t(string) *)
  x_to_hex : bytes -> bytes;
  x_of_hex : bytes -> bytes;
  x_to_addr : bytes -> bytes;
  x_of_addr : bytes -> option bytes }.

Section ENGINE.
  Variable bk : backend.
  Variable x : ext.

  (** src/vm/StorageProxy.cpp:22-62 *)
  Definition read_ex (ro : bool) (v : option svar) : option svar :=
    match v with
    | Some v => if f_deleted (sv_fl v) then None
                else Some (mk_svar (sv_rc v) (let f := set_stored true (set_dirty false (sv_fl v)) in
                                              if ro then set_const true f else f) (sv_val v))
    | None => None
    end.
  Definition charge_read (v : option svar) : M unit :=
    add_gas (STOR_READ_COST + match v with Some v => val_bytes (sv_val v) | None => 0 end / 32 * STOR_READ_32_BYTE_COST) ;;;
    check_gas.
  Definition stor_read (a : N) : M (option svar) :=
    s <- get ;;
    let v := read_ex (s_ro s) (cache_read bk (s_ram s) (s_contract s) a) in
    charge_read v ;;; ret v.
  (** src/vm/StorageProxy.cpp:64-88 *)
  Definition stor_entry (a k : N) : M (option svar) :=
    s <- get ;;
    let v := read_ex (s_ro s) (cache_entry bk (s_ram s) (s_contract s) a k) in
    charge_read v ;;; ret v.
  (** src/vm/StorageProxy.cpp:157-177 *)
  Definition stor_lookup (v : val) : M N :=
    add_gas (STOR_READ_COST + val_bytes v / 32 * STOR_READ_32_BYTE_COST) ;;; check_gas ;;;
    s <- get ;; ret (cache_lookup bk (s_ram s) (s_contract s) v).
  (** src/vm/StorageProxy.cpp:179-195 *)
  Definition stor_balance (cur : addr) : M (option N) :=
    add_gas STOR_READ_COST ;;; check_gas ;;;
    s <- get ;;
    let '(n, r) := cache_balance bk (s_ram s) (s_contract s) cur in
    modify (set_ram r) ;;; ret n.

  (** put what was read from storage into the maps *)
  Definition put_stored (l : loc) (v : svar) : M N := put_new l (sv_rc v) (sv_fl v) (sv_val v).

  (** Engine.cpp:478-499 *)
  Definition read (a : N) (mem_only : bool) : M (option obj) :=
    s <- get ;;
    match cell s (LMem a) with
    | Some o => ret (if f_deleted (o_fl o) then None else Some o)
    | None =>
      if mem_only then ret None
      else if MEM_STATIC <=? a then
        v <- stor_read a ;;
        match v with
        | Some v => put_stored (LMem a) v ;;; s <- get ;; ret (cell s (LMem a))
        | None => ret None
        end
      else ret None
    end.
  (** Engine.cpp:501-507 *)
  Definition read_fail (a : N) : M obj := o <- read a false ;; match o with Some o => ret o | None => throw end.
  (** Engine.cpp:509-528 *)
  Definition read_entry (a k : N) : M (option obj) :=
    s <- get ;;
    match cell s (LEnt a k) with
    | Some o => ret (if f_deleted (o_fl o) then None else Some o)
    | None =>
      if MEM_STATIC <=? a then
        v <- stor_entry a k ;;
        match v with
        | Some v => put_stored (LEnt a k) v ;;; s <- get ;; ret (cell s (LEnt a k))
        | None => ret None
        end
      else ret None
    end.
  (** Engine.cpp:530-536 *)
  Definition read_entry_fail (a k : N) : M obj := o <- read_entry a k ;; match o with Some o => ret o | None => throw end.
  (** Engine.h:259-268 [read_fail] with a type *)
  Definition read_uint (a : N) : M N := o <- read_fail a ;; match o_val o with VUint v => ret v | _ => throw end.
  Definition read_string (a : N) : M bytes := o <- read_fail a ;; match o_val o with VString d => ret d | _ => throw end.
  Definition read_binary (a : N) : M bytes := o <- read_fail a ;; match o_val o with VBinary d => ret d | _ => throw end.
  (** include/mmx/vm/var_t.h:177-182 [to_addr] *)
  Definition to_addr (d : bytes) : M addr := if N.of_nat (length d) =? 32 then ret d else throw.

  (** Engine.cpp:35-40 *)
  Definition addref (a : N) : M unit :=
    o <- read a true ;; match o with Some o => put (LMem a) (obj_addref o) | None => ret tt end.

  (** [erase] (a variable), [clear], [unref], [erase] (an address) and [erase_entries] call each other; they are written here
      over the [erase] of one level below. *)
  Section ERASE.
    Variable er : loc -> M unit.
    (** Engine.cpp:407-418 *)
    Definition erase_mem_with (a : N) : M unit :=
      s <- get ;;
      match cell s (LMem a) with
      | Some _ => er (LMem a)
      | None =>
        if MEM_STATIC <=? a then
          v <- stor_read a ;;
          match v with Some v => put_stored (LMem a) v ;;; er (LMem a) | None => ret tt end
        else ret tt
      end.
    (** Engine.cpp:42-49, include/mmx/vm/var_t.h:94-103 *)
    Definition unref_with (a : N) : M unit :=
      o <- read a true ;;
      match o with
      | Some o =>
        if f_stored (o_fl o) then ret tt
        else if o_rc o =? 0 then throw
        else put (LMem a) (obj_dec o) ;;; (if o_rc o =? 1 then erase_mem_with a else ret tt)
      | None => ret tt
      end.
    (** Engine.cpp:398-405.  Erasing does not add entries, so the range is the one found at the start. *)
    Fixpoint erase_keys_with (a : N) (ks : list N) : M unit :=
      match ks with
      | [] => ret tt
      | k :: ks => er (LEnt a k) ;;; check_gas ;;; erase_keys_with a ks
      end.
    Definition erase_entries_with (a : N) : M unit := s <- get ;; erase_keys_with a (entry_keys s a).
    (** Engine.cpp:453-476 *)
    Definition clear_with (o : obj) : M unit :=
      match o_val o with
      | VRef a => unref_with a
      | VArray a _ | VMap a => if f_stored (o_fl o) then throw else erase_entries_with a
      | _ => ret tt
      end.
  End ERASE.
  (** Engine.cpp:420-451; [n] levels of recursion are left *)
  Fixpoint erase_loc (n : nat) (l : loc) : M unit :=
    s <- get ;;
    match cell s l with
    | None => ret tt
    | Some o =>
      if f_const (o_fl o) then throw
      else if f_deleted (o_fl o) then ret tt
      else if negb (o_rc o =? 0) then throw
      else match n with
           | O => throw
           | S n =>
             add_gas WRITE_COST ;;; check_gas ;;;
             clear_with (erase_loc n) o ;;;
             s <- get ;;
             let prev := match cell s l with Some p => o_fl p | None => no_fl end in
             put_new l 0 (if f_stored prev then set_deleted true (set_dirty true prev) else set_deleted true no_fl) VNil ;;;
             ret tt
           end
    end.
  Definition er := erase_loc MAX_ERASE_RECURSION.
  Definition erase_mem := erase_mem_with er.
  Definition unref := unref_with er.
  Definition clear := clear_with er.

  (** Engine.cpp:73-97 [assign] on a variable; a new value has no flags and no references *)
  Definition assign_loc (l : loc) (v : val) : M unit :=
    s <- get ;;
    let cur := cell s l in
    match cur with
    | Some o => if f_const (o_fl o) then throw else clear o
    | None => ret tt
    end ;;;
    (if MAX_VALUE_BYTES <? val_bytes v then throw else ret tt) ;;;
    add_gas (WRITE_COST + val_bytes v * WRITE_32_BYTE_COST / 32) ;;;
    (let '(rc, f) := match cur with Some o => (o_rc o, o_fl o) | None => (0, no_fl) end in
     put_new l rc (set_deleted false (set_dirty true f)) v) ;;;
    match v with VRef a => addref a | _ => ret tt end.

  (** Engine.cpp:65-68, 159-162: load a stored variable before it is overwritten *)
  Definition load_for_write (a : N) : M unit :=
    s <- get ;;
    match cell s (LMem a) with
    | Some _ => ret tt
    | None =>
      if (MEM_STATIC <=? a) && (a <? s_heap_base s) then
        v <- stor_read a ;; match v with Some v => put_stored (LMem a) v ;;; ret tt | None => ret tt end
      else ret tt
    end.
  Definition check_init (a : N) : M unit := s <- get ;; if s_init s && (a <? MEM_EXTERN) then throw else ret tt.
  (** Engine.cpp:51-71 *)
  Definition assign (a : N) (v : val) : M unit :=
    check_init a ;;; load_for_write a ;;;
    assign_loc (LMem a) (match v with VArray _ n => VArray a n | VMap _ => VMap a | _ => v end).

  (** Engine.cpp:171-296 [write] on a variable; [cont] is what happens with arrays and maps *)
  Definition is_simple (v : val) : bool := match v with VNil | VTrue | VFalse => true | _ => false end.
  Definition ref_loc (r : sref) : option loc := match r with STmp _ => None | SRef l _ => Some l end.
  Definition write_gen (cont : obj -> M unit) (l : loc) (r : sref) : M unit :=
    src <- load r ;;
    if match ref_loc r with Some l' => loc_eqb l l' | None => false end then ret tt
    else if f_deleted (o_fl src) then throw
    else
      let fresh := match o_val src with
                   | VArray _ _ | VMap _ => cont src
                   | v => assign_loc l v
                   end in
      s <- get ;;
      match cell s l with
      | None => fresh
      | Some o =>
        if f_const (o_fl o) then throw
        else
          let o := if f_deleted (o_fl o) then with_fl (fun f => set_deleted false (set_dirty true f)) o else o in
          put l o ;;;
          match o_val src, o_val o with
          | VRef new, VRef old =>
            if new =? old then ret tt
            else
              unref old ;;;
              s <- get ;;
              match cell s l with
              | Some o' => if o_id o' =? o_id o then put l (with_val (VRef new) (with_fl (set_dirty true) o')) ;;; addref new
                           else undefined
              | None => undefined
              end
          | VUint new, VUint old => if new =? old then ret tt else put l (with_val (VUint new) (with_fl (set_dirty true) o))
          | v, w =>
            if is_simple v && is_simple w then
              (if type_of v =? type_of w then ret tt else put l (with_val v (with_fl (set_dirty true) o)))
            else fresh
          end
      end.
  (** an entry: "cannot assign array here", "cannot assign map here" *)
  Definition write_ent : loc -> sref -> M unit := write_gen (fun _ => throw).
  (** Engine.cpp:341-352 *)
  Definition write_entry (a k : N) (r : sref) : M unit :=
    check_init a ;;;
    c <- read_fail a ;;
    if f_const (o_fl c) then throw else write_ent (LEnt a k) r.
  (** Engine.cpp:262-265.  The loop reads the size and the address through the reference each time: after the source was
      destroyed that is undefined.  As long as it lives its size does not change, since only entries are written. *)
  Fixpoint copy_array (d : N) (r : sref) (n : nat) (i : N) : M unit :=
    src <- load r ;;
    match n with
    | O => ret tt
    | S n => match o_val src with
             | VArray a _ => e <- read_entry_fail a i ;; write_entry d i (ent_ref a i e) ;;; check_gas ;;; copy_array d r n (i + 1)
             | _ => undefined
             end
    end.
  (** Engine.cpp:281-289.  The copy adds entries to another container only, so the keys are those found at the start. *)
  Fixpoint copy_map (d : N) (r : sref) (ks : list N) : M unit :=
    src <- load r ;;
    match o_val src, ks with
    | VMap a, k :: ks =>
      s <- get ;;
      match cell s (LEnt a k) with
      | Some e => if f_deleted (o_fl e) then ret tt else write_entry d k (ent_ref a k e) ;;; check_gas
      | None => ret tt
      end ;;; copy_map d r ks
    | VMap _, [] => ret tt
    | _, _ => undefined
    end.
  (** Engine.cpp:252-290 *)
  Definition write_container (d : N) (r : sref) (src : obj) : M unit :=
    match o_val src with
    | VArray _ size => assign_loc (LMem d) (VArray d size) ;;; copy_array d r (N.to_nat size) 0
    | VMap _ =>
      if f_stored (o_fl src) then throw
      else assign_loc (LMem d) (VMap d) ;;;
           src <- load r ;;
           s <- get ;;
           copy_map d r (match o_val src with VMap a => entry_keys s a | _ => [] end)
    | _ => throw
    end.
  (** Engine.cpp:154-164 *)
  Definition write (a : N) (r : sref) : M unit :=
    check_init a ;;; load_for_write a ;;; write_gen (write_container a r) (LMem a) r.
  Definition write_val (a : N) (v : val) : M unit := write a (STmp v).
  (** a null pointer is written as NIL: Engine.cpp:146-152 *)
  Definition write_opt (a : N) (r : option sref) : M unit := write a (match r with Some r => r | None => STmp VNil end).

  (** Engine.cpp:570-588 *)
  Definition alloc : M N :=
    o <- read NEXT_ALLOC false ;;
    match o with
    | Some o => match o_val o with VUint _ => ret tt | _ => throw end
    | None =>
      modify (fun s => set_alloc (s_first_alloc s) MEM_HEAP s) ;;;
      assign NEXT_ALLOC (VUint (MEM_HEAP + GLOBAL_DYNAMIC_START)) ;;;
      s <- get ;;
      match cell s (LMem NEXT_ALLOC) with Some o => put (LMem NEXT_ALLOC) (obj_pin o) | None => ret tt end
    end ;;;
    s <- get ;;
    match cell s (LMem NEXT_ALLOC) with
    | Some o =>
      match o_val o with
      | VUint v =>
        if 2 ^ 64 - 1 <=? v then throw
        else (if s_first_alloc s then modify (set_alloc false v) else ret tt) ;;;
             put (LMem NEXT_ALLOC) (with_val (VUint (v + 1)) (with_fl (set_dirty true) o)) ;;; ret v
      | _ => throw
      end
    | None => throw
    end.

  (** Engine.cpp:114-144; 0: not found *)
  Definition find_key (s : st) (v : val) : option N := lfind (fun a b => compare a b =? 0)%Z v (s_keys s).
  Definition lookup (r : sref) (read_only : bool) : M N :=
    o <- load r ;;
    let v := o_val o in
    if type_of v =? 0 then throw
    else if MAX_KEY_BYTES <? val_bytes v then throw
    else
      s <- get ;;
      match find_key s v with
      | Some a => ret a
      | None =>
        key <- stor_lookup v ;;
        if negb (key =? 0) then
          o <- read_fail key ;;
          if f_const (o_fl o) && f_key (o_fl o) then
            modify (fun s => set_keys ((o_val o, key) :: s_keys s) s) ;;; ret key
          else throw
        else if read_only then ret 0
        else
          key <- alloc ;;
          write key r ;;;
          s <- get ;;
          match cell s (LMem key) with
          | Some o =>
            let o := obj_addref (with_fl (fun f => set_key true (set_const true f)) o) in
            put (LMem key) o ;;;
            modify (fun s => set_keys ((o_val o, key) :: s_keys s) s) ;;; ret key
          | None => throw
          end
      end.
  (** Engine.cpp:99-102 *)
  Definition lookup_addr (a : N) (read_only : bool) : M N := o <- read_fail a ;; lookup (mem_ref a o) read_only.

  (** Engine.cpp:298-306; [array] is used after the entry was written *)
  Definition push_back_ref (d : N) (r : sref) : M unit :=
    arr <- read_fail d ;;
    match o_val arr with
    | VArray a size =>
      if 2 ^ 32 - 1 <=? size then throw
      else
        put (LMem d) (with_val (VArray a (size + 1)) arr) ;;;
        write_entry d size r ;;;
        o <- load (mem_ref d arr) ;;
        put (LMem d) (with_fl (set_dirty true) o)
    | _ => throw
    end.
  (** Engine.cpp:317-323 *)
  Definition push_back (d src : N) : M unit :=
    if d =? src then throw else o <- read_fail src ;; push_back_ref d (mem_ref src o).

  (** Engine.cpp:377-389 *)
  Definition erase_entry (a k : N) : M unit :=
    s <- get ;;
    match cell s (LEnt a k) with
    | Some _ => er (LEnt a k)
    | None =>
      if MEM_STATIC <=? a then
        c <- read_fail a ;;
        if f_stored (o_fl c) then
          v <- stor_entry a k ;;
          match v with Some v => put_stored (LEnt a k) v ;;; er (LEnt a k) | None => ret tt end
        else ret tt
      else ret tt
    end.
  (** Engine.cpp:325-339; [array] is used after [dst] was written *)
  Definition pop_back (d src : N) : M unit :=
    if d =? src then throw
    else
      arr <- read_fail src ;;
      match o_val arr with
      | VArray _ size =>
        if size =? 0 then throw
        else
          let index := size - 1 in
          e <- read_entry_fail src index ;;
          write d (ent_ref src index e) ;;;
          erase_entry src index ;;;
          o <- load (mem_ref src arr) ;;
          match o_val o with
          | VArray a n => put (LMem src) (with_fl (set_dirty true) (with_val (VArray a (n - 1)) o))
          | _ => undefined
          end
      | _ => throw
      end.

  (** Engine.cpp:538-544, 391-396 *)
  Definition read_key (a key : N) : M (option sref) :=
    k <- lookup_addr key true ;;
    if k =? 0 then ret None
    else o <- read_entry a k ;; ret (match o with Some o => Some (ent_ref a k o) | None => None end).
  Definition erase_key (a key : N) : M unit :=
    k <- lookup_addr key true ;; if k =? 0 then ret tt else erase_entry a k.

  (** Engine.cpp:657-662 *)
  Definition copy (d src : N) : M unit := if d =? src then ret tt else o <- read_fail src ;; write d (mem_ref src o).
  (** Engine.cpp:664-669 *)
  Definition clone (d src : N) : M unit :=
    a <- alloc ;; o <- read_fail src ;; write a (mem_ref src o) ;;; write_val d (VRef a).
  (** Engine.cpp:671-696.  The size is read through the reference after the index was read. *)
  Definition vget (d a key : N) (hard : bool) : M unit :=
    v <- read_fail a ;;
    match o_val v with
    | VArray _ _ =>
      index <- read_uint key ;;
      v' <- load (mem_ref a v) ;;
      match o_val v' with
      | VArray _ size =>
        if index <? size then e <- read_entry_fail a (index mod 2 ^ 64) ;; write d (ent_ref a (index mod 2 ^ 64) e)
        else if hard then throw else write_val d VNil
      | _ => undefined
      end
    | VMap _ => r <- read_key a key ;; write_opt d r
    | _ => if hard then throw else write_val d VNil
    end.
  (** Engine.cpp:698-716 *)
  Definition vset (a key src : N) : M unit :=
    v <- read_fail a ;;
    match o_val v with
    | VArray _ _ =>
      index <- read_uint key ;;
      v' <- load (mem_ref a v) ;;
      match o_val v' with
      | VArray _ size =>
        if size <=? index then throw
        else o <- read_fail src ;; write_entry a (index mod 2 ^ 64) (mem_ref src o)
      | _ => undefined
      end
    | VMap _ => o <- read_fail src ;; k <- lookup_addr key false ;; write_entry a k (mem_ref src o)
    | _ => throw
    end.
  (** Engine.cpp:718-728 *)
  Definition verase (a key : N) : M unit := v <- read_fail a ;; match o_val v with VMap _ => erase_key a key | _ => throw end.

  (** Engine.cpp:752-763; the size of the source does not change, since the destination is newly allocated *)
  Fixpoint concat_array (d : N) (r : sref) (n : nat) (i : N) : M unit :=
    src <- load r ;;
    match n with
    | O => ret tt
    | S n => match o_val src with
             | VArray a _ => e <- read_entry_fail a i ;; push_back_ref d (ent_ref a i e) ;;; check_gas ;;; concat_array d r n (i + 1)
             | _ => undefined
             end
    end.
  (** binary_t::unsafe_alloc, include/mmx/vm/var_t.h:225-228 *)
  Definition bin_ok (n : N) : M unit := if 2 ^ 32 - 1 <=? n then throw else ret tt.
  (** Engine.cpp:730-772.  The bytes of strings are copied before anything is written. *)
  Definition concat (d lhs rhs : N) : M unit :=
    L <- read_fail lhs ;;
    R <- read_fail rhs ;;
    L <- load (mem_ref lhs L) ;;
    match o_val L, o_val R with
    | VString l, VString r => bin_ok (N.of_nat (length l + length r)) ;;; assign d (VString (l ++ r))
    | VBinary l, VBinary r => bin_ok (N.of_nat (length l + length r)) ;;; assign d (VBinary (l ++ r))
    | VArray _ n, VArray _ m =>
      if (d =? lhs) || (d =? rhs) then throw
      else
        a <- alloc ;;
        assign a (VArray 0 0) ;;;
        concat_array a (mem_ref lhs L) (N.to_nat n) 0 ;;;
        concat_array a (mem_ref rhs R) (N.to_nat m) 0 ;;;
        write_val d (VRef a)
    | _, _ => throw
    end.
  (** Engine.cpp:774-794 *)
  Definition vmemcpy (d src count offset : N) : M unit :=
    o <- read_fail src ;;
    let go (mk : bytes -> val) (b : bytes) :=
      let size := N.of_nat (length b) in
      if (size <? offset) || (size - offset <? count) then throw
      else bin_ok count ;;; assign d (mk (firstn (N.to_nat count) (skipn (N.to_nat offset) b))) in
    match o_val o with VString b => go VString b | VBinary b => go VBinary b | _ => throw end.
  (** Engine.cpp:796-812 *)
  Definition vsha256 (d src : N) : M unit :=
    o <- read_fail src ;;
    match o_val o with
    | VString b | VBinary b =>
      add_gas ((N.of_nat (length b) + 63) / 64 * SHA256_BLOCK_COST) ;;; check_gas ;;; write_val d (VBinary (x_sha x b))
    | _ => throw
    end.
  (** Engine.cpp:814-822 *)
  Definition vverify (d msg pubkey signature : N) : M unit :=
    add_gas ECDSA_VERIFY_COST ;;; check_gas ;;;
    sg <- read_binary signature ;;
    pk <- read_binary pubkey ;;
    m <- read_binary msg ;;
    match x_verify x m pk sg with Some b => write_val d (vbool b) | None => throw end.

  (** include/mmx/vm/instr_t.h:87-103 *)
  Definition C_DEFAULT := 0.
  Definition C_BASE_2 := 1.
  Definition C_BASE_8 := 2.
  Definition C_BASE_10 := 3.
  Definition C_BASE_16 := 4.
  Definition C_BOOL := 5.
  Definition C_UINT := 6.
  Definition C_STRING := 7.
  Definition C_BINARY := 8.
  Definition C_ADDRESS := 10.
  Definition C_BIG := 11.
  Definition C_LITTLE := 12.
  Definition conv_base (f : N) : option N :=
    if f =? C_BASE_2 then Some 2 else if f =? C_BASE_8 then Some 8 else if f =? C_BASE_10 then Some 10
    else if f =? C_BASE_16 then Some 16 else None.
  Definition conv_endian (f : N) : option bool :=
    if (f =? C_DEFAULT) || (f =? C_BIG) then Some true else if f =? C_LITTLE then Some false else None.
  Definition digit_of (c : N) : option N :=
    if (48 <=? c) && (c <=? 57) then Some (c - 48)
    else if (97 <=? c) && (c <=? 122) then Some (c - 97 + 10)
    else if (65 <=? c) && (c <=? 90) then Some (c - 65 + 10)
    else None.
  Definition digits_ok (base : N) (b : bytes) : bool :=
    forallb (fun c => match digit_of c with Some d => d <? base | None => false end) b.
  Definition has_prefix (c : N) (b : bytes) : bool := match b with 48 :: c' :: _ => c' =? c | _ => false end.
  Definition opt {A} (o : option A) : M A := match o with Some a => ret a | None => throw end.
  Definition alloc_bin (d : N) (mk : bytes -> val) (b : bytes) : M unit := bin_ok (N.of_nat (length b)) ;;; assign d (mk b).
  (** Engine.cpp:824-1061 *)
  Definition conv (d src dflags sflags : N) : M unit :=
    let d0 := dflags mod 256 in
    let d1 := dflags / 256 mod 256 in
    let s0 := sflags mod 256 in
    o <- read_fail src ;;
    let self := mem_ref src o in
    if d0 =? C_BOOL then write_val d (vbool (is_true (o_val o)))
    else match o_val o with
    | VNil => if d0 =? C_UINT then write_val d (VUint 0) else if d0 =? C_ADDRESS then write_val d (VBinary (repeat 0 32)) else throw
    | VTrue => if d0 =? C_UINT then write_val d (VUint 1) else throw
    | VFalse => if d0 =? C_UINT then write_val d (VUint 0) else throw
    | VUint v =>
      if d0 =? C_UINT then write d self
      else if d0 =? C_STRING then
        base <- opt (if d1 =? C_DEFAULT then Some 10 else conv_base d1) ;;
        (if negb (N.shiftr v 128 =? 0) then (if base =? 10 then throw else add_gas CONV_UINT_256_STRING_COST)
         else if negb (N.shiftr v 64 =? 0) then add_gas CONV_UINT_128_STRING_COST
         else if negb (N.shiftr v 32 =? 0) then add_gas CONV_UINT_64_STRING_COST
         else add_gas CONV_UINT_32_STRING_COST) ;;;
        check_gas ;;; alloc_bin d VString (x_to_str x v base)
      else if d0 =? C_BINARY then
        big <- opt (conv_endian d1) ;;
        alloc_bin d VBinary (if big : bool then rev (le_bytes 32 v) else le_bytes 32 v)
      else throw
    | VString b =>
      if d0 =? C_UINT then
        base <- opt (if s0 =? C_DEFAULT then Some (if has_prefix 120 b then 16 else if has_prefix 98 b then 2 else 10)
                     else conv_base s0) ;;
        let value := if has_prefix 120 b || has_prefix 98 b then skipn 2 b else b in
        if digits_ok base value then
          add_gas (N.of_nat (length value) * CONV_STRING_UINT_CHAR_COST) ;;; check_gas ;;;
          write_val d (VUint (x_of_str x value base mod 2 ^ 256))
        else throw
      else if d0 =? C_STRING then write d self
      else if d0 =? C_BINARY then
        if s0 =? C_DEFAULT then alloc_bin d VBinary b
        else if s0 =? C_BASE_16 then
          if negb (N.of_nat (length b) mod 2 =? 0) then throw
          else if digits_ok 16 (if has_prefix 120 b then skipn 2 b else b) then alloc_bin d VBinary (x_of_hex x b)
          else throw
        else throw
      else if d0 =? C_ADDRESS then
        add_gas CONV_STRING_BECH32_COST ;;; check_gas ;;;
        a <- opt (x_of_addr x b) ;; alloc_bin d VBinary a
      else throw
    | VBinary b =>
      if d0 =? C_UINT then
        if negb (N.of_nat (length b) =? 32) then throw
        else big <- opt (conv_endian s0) ;; write_val d (VUint (of_le (if big : bool then rev b else b) mod 2 ^ 256))
      else if d0 =? C_STRING then
        if d1 =? C_ADDRESS then
          add_gas CONV_BECH32_STRING_COST ;;; check_gas ;;; a <- to_addr b ;; alloc_bin d VString (x_to_addr x a)
        else if d1 =? C_BASE_16 then alloc_bin d VString (x_to_hex x b)
        else if d1 =? C_DEFAULT then alloc_bin d VString b
        else throw
      else if d0 =? C_BINARY then write d self
      else if d0 =? C_ADDRESS then (if negb (N.of_nat (length b) =? 32) then throw else write d self)
      else throw
    | _ => throw
    end.

  (** Engine.cpp:1077-1097 *)
  Definition parse_memo (a : N) : M (option bytes) :=
    o <- read_fail a ;;
    match o_val o with
    | VNil => ret None
    | VString b => if 64 <? N.of_nat (length b) then throw else ret (match b with [] => None | _ => Some b end)
    | _ => throw
    end.
  (** Engine.cpp:1177-1190 *)
  Definition get_balance (currency : N) : M (addr * N) :=
    b <- read_binary currency ;;
    cur <- to_addr b ;;
    s <- get ;;
    match lfind addr_eqb cur (s_bal s) with
    | Some n => ret (cur, n)
    | None =>
      add_gas WRITE_COST ;;;
      v <- stor_balance cur ;;
      let n := match v with Some n => n | None => 0 end in
      modify (fun s => set_bal ((cur, n) :: s_bal s) s) ;;; ret (cur, n)
    end.
  (** Engine.cpp:1099-1123 *)
  Definition vsend (address amount currency memo : N) : M unit :=
    v <- read_uint amount ;;
    if v =? 0 then ret tt
    else if negb (N.shiftr v 128 =? 0) then throw
    else if currency =? 0 then throw
    else
      p <- get_balance currency ;;
      let '(cur, balance) := p in
      if balance <? v then throw
      else
        modify (fun s => set_bal ((cur, balance - v) :: s_bal s) s) ;;;
        c <- read_binary currency ;; c <- to_addr c ;;
        a <- read_binary address ;; a <- to_addr a ;;
        m <- parse_memo memo ;;
        modify (fun s => set_outs (s_outs s ++ [mk_txout a c v m]) s).
  (** Engine.cpp:1125-1140 *)
  Definition vmint (address amount memo : N) : M unit :=
    v <- read_uint amount ;;
    if v =? 0 then ret tt
    else if negb (N.shiftr v 80 =? 0) then throw
    else
      a <- read_binary address ;; a <- to_addr a ;;
      m <- parse_memo memo ;;
      modify (fun s => set_mints (s_mints s ++ [mk_txout a (s_contract s) v m]) s).
  (** Engine.cpp:1192-1195 *)
  Definition read_balance (d currency : N) : M unit := p <- get_balance currency ;; write_val d (VUint (snd p)).

  (** Engine.cpp:1246-1252 *)
  Definition get_frame : M (N * N) := s <- get ;; match s_frames s with f :: _ => ret f | [] => throw end.
  (** Engine.cpp:1218-1221 *)
  Definition jump (ip : N) : M unit :=
    s <- get ;; match s_frames s with (_, sp) :: fs => modify (set_frames ((ip, sp) :: fs)) | [] => throw end.
  (** Engine.cpp:1223-1237 *)
  Definition call (ip sp : N) : M unit :=
    if STACK_SIZE <=? sp then throw
    else
      s <- get ;;
      if (MAX_CALL_RECURSION <=? length (s_frames s))%nat then throw
      else add_gas INSTR_CALL_COST ;;;
           f <- get_frame ;;
           modify (fun s => set_frames ((ip, (snd f + sp) mod 2 ^ 64) :: s_frames s) s).
  (** Engine.cpp:1738-1745.  Clearing a variable does not add stack variables, so the range is the one found at the start.
      When [MEM_STACK + offset] is above [MEM_STATIC] the loop starts behind its end: unless both bounds are the same element
      it goes on to the end of [memory] and past it. *)
  Definition in_range (lo hi : N) (s : st) : list N := map fst (filter (fun e => (lo <=? fst e) && (fst e <? hi)) (s_mem s)).
  Definition above (lo : N) (s : st) : list N := map fst (filter (fun e => lo <=? fst e) (s_mem s)).
  Fixpoint clear_addrs (l : list N) : M unit :=
    match l with
    | [] => ret tt
    | a :: l =>
      s <- get ;;
      match cell s (LMem a) with
      | Some o => clear o ;;; modify (fun s => set_mem (filter (fun e => negb (fst e =? a)) (s_mem s)) s) ;;; check_gas
      | None => ret tt
      end ;;; clear_addrs l
    end.
  Definition clear_stack (offset : N) : M unit :=
    s <- get ;;
    let from := MEM_STACK + offset in
    if from <=? MEM_STATIC then clear_addrs (in_range from MEM_STATIC s)
    else match in_range MEM_STATIC from s with
         | [] => ret tt
         | _ => clear_addrs (above from s) ;;; undefined
         end.
  (** Engine.cpp:1239-1244 *)
  Definition do_ret : M bool :=
    f <- get_frame ;;
    clear_stack (snd f + 1) ;;;
    modify (fun s => set_frames (tl (s_frames s)) s) ;;;
    s <- get ;; ret (match s_frames s with [] => true | _ => false end).
  (** Engine.cpp:1259-1286 *)
  Definition deref (a : N) : M N := o <- read_fail a ;; ret (match o_val o with VRef t => t | _ => a end).
  Definition deref_addr (a : N) (flag : bool) : M N :=
    a' <- (if (MEM_STACK <=? a) && (a <? MEM_STATIC) then
             f <- get_frame ;; (if MEM_STATIC <=? a + snd f then throw else ret (a + snd f))
           else ret a) ;;
    if flag then deref a' else ret a'.
  Definition deref_value (a : N) (flag : bool) : M N :=
    if flag then p <- deref_addr a false ;; v <- read_uint p ;; ret (v mod 2 ^ 64) else ret a.

  (** the two callbacks of Engine.h:112-113; [log_func] and [event_func] (lines 110-111) are not set by the node *)
  Variable remote_call : bytes -> bytes -> N -> M unit.
  Variable read_contract : addr -> bytes -> N -> M unit.

  (** Engine.cpp:1142-1165; [nargs] is passed as 32-bit number, which holds it after the check *)
  Definition rcall (name method sp nargs : N) : M unit :=
    if STACK_SIZE <=? sp then throw
    else
      s <- get ;;
      if (MAX_CALL_RECURSION <=? length (s_frames s))%nat then throw
      else if 4096 <? nargs then throw
      else
        add_gas INSTR_CALL_COST ;;;
        f <- get_frame ;;
        modify (fun s => set_frames ((fst f, (snd f + sp) mod 2 ^ 64) :: s_frames s) s) ;;;
        n <- read_string name ;;
        m <- read_string method ;;
        remote_call n m nargs ;;;
        do_ret ;;; ret tt.
  (** Engine.cpp:1167-1175 *)
  Definition cread (d address field : N) : M unit :=
    a <- read_binary address ;; a <- to_addr a ;; f <- read_string field ;; read_contract a f d.

  (** operands *)
  Definition adr_a (i : instr) := deref_addr (i_a i) (opflag i REF_A).
  Definition adr_b (i : instr) := deref_addr (i_b i) (opflag i REF_B).
  Definition adr_c (i : instr) := deref_addr (i_c i) (opflag i REF_C).
  Definition adr_d (i : instr) := deref_addr (i_d i) (opflag i REF_D).
  Definition val_a (i : instr) := deref_value (i_a i) (opflag i REF_A).
  Definition val_b (i : instr) := deref_value (i_b i) (opflag i REF_B).
  Definition val_c (i : instr) := deref_value (i_c i) (opflag i REF_C).
  Definition val_d (i : instr) := deref_value (i_d i) (opflag i REF_D).
  Definition next : M unit := f <- get_frame ;; jump ((fst f + 1) mod 2 ^ 64).

  (** 3-operand number instructions, Engine.cpp:1337-1423, 1554-1571: [f] gives the extra gas and the result *)
  Definition arith (i : instr) (f : N -> N -> option (N * N)) : M unit :=
    dst <- adr_a i ;; lhs <- adr_b i ;; rhs <- adr_c i ;;
    L <- read_uint lhs ;; R <- read_uint rhs ;;
    match f L R with
    | None => throw
    | Some (g, D) => add_gas g ;;; write_val dst (VUint D)
    end.
  Definition catch (i : instr) : bool := opflag i CATCH_OVERFLOW.
  (** Engine.cpp:1337-1349 *)
  Definition op_add (i : instr) (L R : N) : option (N * N) :=
    let D := (L + R) mod 2 ^ 256 in if catch i && (D <? L) then None else Some (0, D).
  (** Engine.cpp:1350-1362 *)
  Definition op_sub (i : instr) (L R : N) : option (N * N) :=
    let D := (L + 2 ^ 256 - R) mod 2 ^ 256 in if catch i && (L <? D) then None else Some (0, D).
  (** Engine.cpp:1363-1385 *)
  Definition op_mul (version : N) (i : instr) (L R : N) : option (N * N) :=
    let D := (L * R) mod 2 ^ 256 in
    let g := if negb (N.shiftr L 64 =? 0) || negb (N.shiftr R 64 =? 0) then INSTR_MUL_256_COST else INSTR_MUL_128_COST in
    let overflow := if 1 <=? version then negb (L =? 0) && (MAX256 / L <? R) else (D <? L) && (D <? R) in
    if catch i && overflow then None else Some (g, D).
  (** Engine.cpp:1386-1404, 1405-1423 *)
  Definition div_gas (L : N) : N :=
    if negb (L / 2 ^ 128 =? 0) then INSTR_DIV_256_COST
    else if negb (L / 2 ^ 64 =? 0) then INSTR_DIV_128_COST else INSTR_DIV_64_COST.
  Definition op_div (L R : N) : option (N * N) := if R =? 0 then None else Some (div_gas L, L / R).
  Definition op_mod (L R : N) : option (N * N) := if R =? 0 then None else Some (div_gas L, L mod R).
  Fixpoint zip_with (f : N -> N -> N) (a b : bytes) : bytes :=
    match a, b with u :: a, v :: b => f u v :: zip_with f a b | _, _ => [] end.
  (** Engine.cpp:1449-1553 *)
  Definition logic (i : instr) (fb : N -> N -> N) (ft : bool -> bool -> bool) : M unit :=
    dst <- adr_a i ;; lhs <- adr_b i ;; rhs <- adr_c i ;;
    L <- read_fail lhs ;; R <- read_fail rhs ;;
    L <- load (mem_ref lhs L) ;;
    if opflag i BITWISE then
      match o_val L, o_val R with
      | VUint l, VUint r => write_val dst (VUint (fb l r))
      | VBinary l, VBinary r =>
        if N.of_nat (length l) =? N.of_nat (length r) then assign dst (VBinary (zip_with fb l r)) else throw
      | _, _ => throw
      end
    else write_val dst (vbool (ft (is_true (o_val L)) (is_true (o_val R)))).
  (** Engine.cpp:1572-1587; shifting by 256 or more gives 0 *)
  Definition shift (i : instr) (f : N -> N -> N) : M unit :=
    dst <- adr_a i ;; src <- adr_b i ;; count <- val_c i ;;
    v <- read_uint src ;; write_val dst (VUint (f v count)).
  Definition shl v count := if 256 <=? count then 0 else N.shiftl v count mod 2 ^ 256.
  Definition shr v count := if 256 <=? count then 0 else N.shiftr v count.
  (** Engine.cpp:1588-1620 *)
  Definition cmp (i : instr) (any_type : bool) (f : Z -> bool) : M unit :=
    dst <- adr_a i ;; lhs <- adr_b i ;; rhs <- adr_c i ;;
    L <- read_fail lhs ;; R <- read_fail rhs ;;
    L <- load (mem_ref lhs L) ;;
    if negb any_type && negb (type_of (o_val L) =? type_of (o_val R)) then throw
    else write_val dst (vbool (f (compare (o_val L) (o_val R)))).

  (** Engine.cpp:1288-1736 *)
  Definition exec_op (i : instr) : M bool :=
    let c := i_code i in
    let go (m : M unit) : M bool := m ;;; ret true in
    if c =? 0x00 then ret true
    else if c =? 0x01 then if opflag i REF_A then throw else go (erase_mem (i_a i))
    else if c =? 0x02 then go (a <- adr_a i ;; b <- adr_b i ;; copy a b)
    else if c =? 0x03 then go (a <- adr_a i ;; b <- adr_b i ;; clone a b)
    else if c =? 0x04 then a <- val_a i ;; jump a ;;; ret false
    else if c =? 0x05 then
      b <- adr_b i ;; o <- read_fail b ;; (if is_true (o_val o) then a <- val_a i ;; jump a ;;; ret false else ret true)
    else if c =? 0x06 then
      b <- adr_b i ;; o <- read_fail b ;; (if negb (is_true (o_val o)) then a <- val_a i ;; jump a ;;; ret false else ret true)
    else if c =? 0x07 then
      if opflag i REF_B then throw else a <- val_a i ;; b <- val_b i ;; call a b ;;; ret false
    else if c =? 0x08 then e <- do_ret ;; ret (negb e)
    else if c =? 0x20 then go (arith i (op_add i))
    else if c =? 0x21 then go (arith i (op_sub i))
    else if c =? 0x22 then go (s <- get ;; arith i (op_mul (s_version s) i))
    else if c =? 0x23 then go (arith i op_div)
    else if c =? 0x24 then go (arith i op_mod)
    else if c =? 0x40 then
      go (dst <- adr_a i ;; src <- adr_b i ;; o <- read_fail src ;;
          if opflag i BITWISE then
            match o_val o with
            | VUint v => write_val dst (VUint (MAX256 - v))
            | VBinary b => assign dst (VBinary (map (fun b => 255 - b) b))
            | _ => throw
            end
          else write_val dst (vbool (negb (is_true (o_val o)))))
    else if c =? 0x41 then go (logic i N.lxor xorb)
    else if c =? 0x42 then go (logic i N.land andb)
    else if c =? 0x43 then go (logic i N.lor orb)
    else if c =? 0x44 then go (arith i (fun L R => Some (0, if L <? R then L else R)))
    else if c =? 0x45 then go (arith i (fun L R => Some (0, if R <? L then L else R)))
    else if c =? 0x46 then go (shift i shl)
    else if c =? 0x47 then go (shift i shr)
    else if c =? 0x60 then go (cmp i true (fun z => z =? 0)%Z)
    else if c =? 0x61 then go (cmp i true (fun z => negb (z =? 0)%Z))
    else if c =? 0x62 then go (cmp i false (fun z => z <? 0)%Z)
    else if c =? 0x63 then go (cmp i false (fun z => 0 <? z)%Z)
    else if c =? 0x64 then go (cmp i false (fun z => z <=? 0)%Z)
    else if c =? 0x65 then go (cmp i false (fun z => 0 <=? z)%Z)
    else if c =? 0x80 then
      go (dst <- adr_a i ;; a <- adr_b i ;; o <- read_fail a ;; write_val dst (VUint (type_of (o_val o))))
    else if c =? 0x81 then
      go (dst <- adr_a i ;; a <- adr_b i ;; o <- read_fail a ;;
          match o_val o with
          | VString b | VBinary b => write_val dst (VUint (N.of_nat (length b)))
          | VArray _ n => write_val dst (VUint n)
          | _ => throw
          end)
    else if c =? 0x82 then go (a <- adr_a i ;; b <- adr_b i ;; c <- adr_c i ;; vget a b c (opflag i HARD_FAIL))
    else if c =? 0x83 then go (a <- adr_a i ;; b <- adr_b i ;; c <- adr_c i ;; vset a b c)
    else if c =? 0x84 then go (a <- adr_a i ;; b <- adr_b i ;; verase a b)
    else if c =? 0x85 then go (a <- adr_a i ;; b <- adr_b i ;; push_back a b)
    else if c =? 0x86 then go (a <- adr_a i ;; b <- adr_b i ;; pop_back a b)
    else if c =? 0xA0 then go (a <- adr_a i ;; b <- adr_b i ;; c <- val_c i ;; d <- val_d i ;; conv a b c d)
    else if c =? 0xA1 then go (a <- adr_a i ;; b <- adr_b i ;; c <- adr_c i ;; concat a b c)
    else if c =? 0xA2 then go (a <- adr_a i ;; b <- adr_b i ;; c <- val_c i ;; d <- val_d i ;; vmemcpy a b c d)
    else if c =? 0xA3 then go (a <- adr_a i ;; b <- adr_b i ;; vsha256 a b)
    else if c =? 0xA4 then go (a <- adr_a i ;; b <- adr_b i ;; c <- adr_c i ;; d <- adr_d i ;; vverify a b c d)
    else if c =? 0xC0 then go (a <- val_a i ;; b <- adr_b i ;; ret tt)
    else if c =? 0xC1 then go (a <- adr_a i ;; b <- adr_b i ;; c <- adr_c i ;; d <- adr_d i ;; vsend a b c d)
    else if c =? 0xC2 then go (a <- adr_a i ;; b <- adr_b i ;; c <- adr_c i ;; vmint a b c)
    else if c =? 0xC3 then go (a <- adr_a i ;; b <- adr_b i ;; ret tt)
    else if c =? 0xC4 then
      b <- val_b i ;; modify (set_error (b mod 2 ^ 32)) ;;; a <- adr_a i ;; read a false ;;; throw
    else if c =? 0xC5 then go (a <- adr_a i ;; b <- adr_b i ;; c <- val_c i ;; d <- val_d i ;; rcall a b c d)
    else if c =? 0xC6 then go (a <- adr_a i ;; b <- adr_b i ;; c <- adr_c i ;; cread a b c)
    else if c =? 0xC7 then go (a <- adr_a i ;; b <- adr_b i ;; read_balance a b)
    else throw.
  (** [true]: the instruction does not jump, the next one follows (Engine.cpp:1735) *)
  Definition exec (i : instr) : M unit :=
    add_gas INSTR_COST ;;; n <- exec_op i ;; if n : bool then next else ret tt.
  (** Engine.cpp:631-647 *)
  Definition step : M unit :=
    f <- get_frame ;;
    s <- get ;;
    match nth_error (s_code s) (N.to_nat (fst f)) with
    | None => throw
    | Some i => exec i ;;; check_gas
    end.
  (** Engine.cpp:624-629 *)
  Fixpoint run (fuel : nat) : M unit :=
    s <- get ;;
    match s_frames s with
    | [] => ret tt
    | _ => match fuel with O => fun _ => Fuel | S n => step ;;; run n end
    end.

  (** Engine.cpp:590-603 *)
  Definition init : M unit :=
    s <- get ;;
    if s_init s then throw
    else
      let ks := filter (fun e => (1 <=? fst e) && (fst e <? MEM_EXTERN) && (val_bytes (o_val (snd e)) <=? MAX_KEY_BYTES)) (s_mem s) in
      modify (fun s => set_init true (set_keys (s_keys s ++ map (fun e => (o_val (snd e), fst e)) ks) s)).
  (** Engine.cpp:605-622 *)
  Definition begin (ip : N) : M unit :=
    s <- get ;;
    if negb (s_init s) then throw
    else match s_frames s with
    | _ :: _ => throw
    | [] =>
      modify (fun s => set_frames [(ip, 0)]
        (set_mem (map (fun e => if fst e <? MEM_STACK
                                then (fst e, with_fl (fun f => set_dirty false (set_const true f)) (snd e)) else e) (s_mem s)) s))
    end.

  (** src/vm/StorageProxy.cpp:90-122 *)
  Definition ref_static (v : val) : bool := match v with VRef a => MEM_STATIC <=? a | _ => true end.
  Definition to_svar (o : obj) : svar := mk_svar (o_rc o) (o_fl o) (o_val o).
  Definition stor_write (a : N) (o : obj) : M unit :=
    s <- get ;;
    if s_ro s then throw
    else if negb (ref_static (o_val o)) then throw
    else if f_key (o_fl o) && negb (f_const (o_fl o)) then throw
    else
      add_gas ((STOR_WRITE_COST + val_bytes (o_val o) * STOR_WRITE_BYTE_COST) * (if f_key (o_fl o) then 2 else 1)) ;;; check_gas ;;;
      s <- get ;;
      match ram_write (s_ram s) (s_contract s) a (to_svar o) with
      | Some r => modify (set_ram r)
      | None => throw
      end.
  (** src/vm/StorageProxy.cpp:124-155 *)
  Definition stor_write_entry (a k : N) (o : obj) : M unit :=
    s <- get ;;
    if s_ro s then throw
    else if negb (ref_static (o_val o)) then throw
    else if negb (o_rc o =? 0) then throw
    else
      add_gas (STOR_WRITE_COST + val_bytes (o_val o) * STOR_WRITE_BYTE_COST) ;;; check_gas ;;;
      modify (fun s => set_ram (ram_write_entry (s_ram s) (s_contract s) a k (to_svar o)) s).
  (** Engine.cpp:1747-1770 *)
  Fixpoint commit_mem (l : list (N * obj)) : M unit :=
    match l with
    | [] => ret tt
    | (a, o) :: l =>
      (if f_dirty (o_fl o) then stor_write a o ;;; put (LMem a) (with_fl (set_dirty false) o) else ret tt) ;;; commit_mem l
    end.
  Fixpoint commit_ent (l : list ((N * N) * obj)) : M unit :=
    match l with
    | [] => ret tt
    | ((a, k), o) :: l =>
      (if f_dirty (o_fl o) then stor_write_entry a k o ;;; put (LEnt a k) (with_fl (set_dirty false) o) else ret tt) ;;;
      commit_ent l
    end.
  Definition commit : M unit :=
    clear_stack 0 ;;;
    s <- get ;;
    commit_mem (filter (fun e => MEM_STATIC <=? fst e) (s_mem s)) ;;;
    commit_ent (filter (fun e => MEM_STATIC <=? fst (fst e)) (s_ent s)) ;;;
    check_gas.

  (** src/vm_interface.cpp:377-386 *)
  Definition execute (fuel : nat) (ip : N) (is_const : bool) : M unit :=
    begin ip ;;; run fuel ;;; (if is_const then ret tt else commit) ;;; check_gas.

  (** src/vm_interface.cpp:28-34 *)
  Definition set_deposit (currency : addr) (amount : N) : M unit :=
    let a := MEM_EXTERN + EXTERN_DEPOSIT in
    assign a (VArray 0 0) ;;; push_back_ref a (STmp (VBinary currency)) ;;; push_back_ref a (STmp (VUint amount)).
  (** src/vm_interface.cpp:53-69; [constants] is the result of [read_constants], lines 36-51; [None]: it throws.
      The overflow is found before and not after the constants were written. *)
  Fixpoint load_constants (l : list val) (dst : N) : M unit :=
    match l with
    | [] => ret tt
    | v :: l => assign dst v ;;; load_constants l (dst + 1)
    end.
  Definition load_binary (constants : option (list val)) (code : option (list instr)) : M unit :=
    constants <- opt constants ;;
    (if MEM_EXTERN <=? N.of_nat (length constants) then throw else ret tt) ;;;
    load_constants constants 0 ;;;
    code <- opt code ;;
    modify (set_code code) ;;; init ;;; check_gas.
End ENGINE.
