(** Execution of contract methods by the node, with remote calls between contracts.
    Models /repo/src/vm_interface.cpp:71-142, 144-296, 366-386 and /repo/src/Node_validate.cpp:389-606. *)
Require Import List Arith NArith ZArith Bool.
From Verif Require Import BytesLib OrdLib VarModel InstrModel EngineModel.
Import ListNotations.
Open Scope N_scope.

(** vnx::Variant as seen by the visitor [AssignTo]; [TBad]: negative and floating point numbers *)
Inductive vnt := TNull | TBool (b : bool) | TUint (n : N) | TString (b : bytes) | TBytes (b : bytes)
  | TList (l : list vnt) | TMap (l : list (vnt * vnt)) | TBad.

(** include/mmx/contract/method_t.hxx (interface/contract/method_t.vni), interface/contract/Binary.vni.
    [b_const], [b_code]: the result of vm::read_constants and of vm::deserialize, [None] when they throw. *)
Record method := mk_method { m_init : bool; m_const : bool; m_public : bool; m_entry : N }.
Record binary := mk_binary { b_const : option (list val); b_code : option (list instr); b_methods : list (bytes * method) }.
(** a contract: an executable one has the address of its binary and its external contracts (src/contract/Executable.cpp:33-40);
    [k_field]: src/contract/*.cpp [read_field] *)
Record contract := mk_contract { k_exec : option (addr * list (bytes * addr)); k_field : bytes -> vnt }.

(** what the node knows during the execution of one transaction *)
Record env := mk_env {
  e_backend : backend; e_ext : ext;
  e_contract : addr -> option contract;      (** contract_map *)
  e_binary : addr -> option binary;
  e_read_cost : addr -> N;                   (** min_txfee_read + contract_read_cost, src/Node_api.cpp:593-602 *)
  e_fee_exec : N;                            (** params->min_txfee_exec *)
  e_hf2 : bool;                              (** height >= hardfork2_height *)
  e_network : bytes; e_height : N; e_txid : bytes; e_version : N;
  e_deploy : option contract;                (** tx->deploy *)
  e_locked : addr -> bool                    (** context->mutate_map has the transaction for this contract *) }.

Inductive res2 (A : Type) := Ok2 (a : A) (d s : st) | Throw2 (d s : st) | Undefined2 (d s : st) | Fuel2.
Arguments Ok2 {A}. Arguments Throw2 {A}. Arguments Undefined2 {A}. Arguments Fuel2 {A}.

Section EXEC.
  Variable E : env.
  Let bk := e_backend E.
  Let x := e_ext E.

  (** src/Node_api.cpp:591-602 *)
  Definition charge_contract (a : addr) : M unit :=
    s <- get ;;
    if s_limit s <? s_gas s + e_read_cost E a then throw else add_gas (e_read_cost E a).

  (** src/vm_interface.cpp:144-296: [key] and [lookup] of the innermost frame are arguments here.
      [n]: MAX_COPY_RECURSION less the depth of the stack. *)
  Definition var_of (t : vnt) : option val :=
    match t with
    | TNull => Some VNil | TBool b => Some (if b then VTrue else VFalse) | TUint n => Some (VUint n)
    | TString b => Some (VString b) | TBytes b => Some (VBinary b) | _ => None
    end.
  Definition key_ok (v : val) : bool := match v with VUint _ | VString _ | VBinary _ => true | _ => false end.
  Inductive place := PVar (a : N) | PEntry (a k : N).
  (** [handle], lines 261-280 *)
  Definition handle (p : place) (v : val) : M unit :=
    match p with
    | PVar a => assign bk a v
    | PEntry a k => write_entry bk a k (STmp v)
    end.
  (** binary_t::alloc *)
  Definition size_ok (v : val) : M unit :=
    match v with VString b | VBinary b => bin_ok (N.of_nat (length b)) | _ => ret tt end.
  (** [n]: frames that may still be pushed.  The nested lists and maps are visited by the inner loops. *)
  Fixpoint assign_to (n : nat) (p : place) (t : vnt) {struct t} : M unit :=
    match t with
    | TList l =>
      match n with
      | O => throw
      | S n =>
        a <- alloc bk ;;
        assign bk a (VArray 0 (N.of_nat (length l) mod 2 ^ 32)) ;;;
        (fix go (l : list vnt) (i : N) : M unit :=
           match l with [] => ret tt | t :: l => assign_to n (PEntry a i) t ;;; go l (i + 1) end) l 0 ;;;
        handle p (VRef a)
      end
    | TMap l =>
      match n with
      | O => throw
      | S n =>
        a <- alloc bk ;;
        assign bk a (VMap 0) ;;;
        (fix go (l : list (vnt * vnt)) : M unit :=
           match l with
           | [] => ret tt
           | (k, t) :: l =>
             (** a list or a map as key is built and then refused by [handle]; here it is refused at once *)
             v <- opt (var_of k) ;;
             size_ok v ;;;
             (if key_ok v then ret tt else throw) ;;;
             k <- lookup bk (STmp v) false ;;
             assign_to n (PEntry a k) t ;;; go l
           end) l ;;;
        handle p (VRef a)
      end
    | t => v <- opt (var_of t) ;; size_ok v ;;; handle p v
    end.
  (** src/vm_interface.cpp:292-296; the outermost frame is on the stack *)
  Definition assign_var (dst : N) (t : vnt) : M unit := assign_to (MAX_COPY_RECURSION - 1) (PVar dst) t.
  (** src/vm_interface.cpp:366-375 *)
  Fixpoint set_args (args : list vnt) (dst : N) : M unit :=
    match args with
    | [] => ret tt
    | t :: args => if MEM_STATIC <=? dst then throw else assign_var dst t ;;; set_args args (dst + 1)
    end.

  (** Two engines at work, the destination and the source of the copy *)
  Definition MM (A : Type) := st * st -> res2 A.
  Definition on_dst {A} (m : M A) : MM A :=
    fun '(d, s) => match m d with Ok a d => Ok2 a d s | Throw d => Throw2 d s | Undefined d => Undefined2 d s | Fuel => Fuel2 end.
  Definition on_src {A} (m : M A) : MM A :=
    fun '(d, s) => match m s with Ok a s => Ok2 a d s | Throw s => Throw2 d s | Undefined s => Undefined2 d s | Fuel => Fuel2 end.
  Definition bind2 {A B} (m : MM A) (k : A -> MM B) : MM B :=
    fun p => match m p with
             | Ok2 a d s => k a (d, s) | Throw2 d s => Throw2 d s | Undefined2 d s => Undefined2 d s | Fuel2 => Fuel2
             end.
  Notation "x <~ m ;; k" := (bind2 m (fun x => k)) (at level 61, m at next level, right associativity).
  Definition ret2 {A} (a : A) : MM A := fun '(d, s) => Ok2 a d s.
  Definition throw2 {A} : MM A := fun '(d, s) => Throw2 d s.

  Fixpoint each {A} (f : A -> MM unit) (l : list A) : MM unit :=
    match l with [] => ret2 tt | a :: l => _ <~ f a ;; each f l end.
  (** Engine.cpp:1772-1784 *)
  Definition find_entries (a : N) (s : st) : list (N * val) :=
    map (fun e => (snd (fst e), o_val (snd e)))
        (filter (fun e => (fst (fst e) =? a) && negb (f_deleted (o_fl (snd e)))) (s_ent s)).
  Fixpoint seqN (n : nat) (i : N) : list N := match n with O => [] | S n => i :: seqN n (i + 1) end.
  (** src/vm_interface.cpp:73-137; [v] is a copy of the source variable, which the copy does not change, with its STORED flag;
      [n] levels of recursion are left *)
  Fixpoint vcopy (n : nat) (p : place) (v : option (val * bool)) : MM unit :=
    match n with
    | O => throw2
    | S n =>
      let read_src (a : N) : MM (option (val * bool)) :=
        o <~ on_src (read bk a false) ;; ret2 (option_map (fun o => (o_val o, f_stored (o_fl o))) o) in
      _ <~ match v with
           | None => ret2 tt
           | Some (VRef a, _) =>
             heap <~ on_dst (alloc bk) ;;
             o <~ read_src a ;;
             _ <~ vcopy n (PVar heap) o ;;
             on_dst (match p with PVar a => write bk a (STmp (VRef heap)) | PEntry a k => write_entry bk a k (STmp (VRef heap)) end)
           | Some (VArray a size, _) =>
             match p with
             | PEntry _ _ => throw2
             | PVar d =>
               _ <~ on_dst (assign bk d (VArray 0 size)) ;;
               each (fun i => o <~ on_src (read_entry bk a i) ;;
                              vcopy n (PEntry d i) (option_map (fun o => (o_val o, f_stored (o_fl o))) o)) (seqN (N.to_nat size) 0)
             end
           | Some (VMap a, stored) =>
             match p with
             | PEntry _ _ => throw2
             | PVar d =>
               if stored : bool then throw2
               else
                 _ <~ on_dst (assign bk d (VMap 0)) ;;
                 l <~ on_src (s <- get ;; ret (find_entries a s)) ;;
                 each (fun e => o <~ on_src (read bk (fst e) false) ;;
                                k <~ (match o with Some o => on_dst (lookup bk (STmp (o_val o)) false) | None => ret2 0 end) ;;
                                vcopy n (PEntry d k) (Some (snd e, false))) l
             end
           | Some (v, _) =>
             on_dst (match p with PVar a => write bk a (STmp v) | PEntry a k => write_entry bk a k (STmp v) end)
           end ;;
      on_dst check_gas
    end.
  (** src/vm_interface.cpp:134-142 *)
  Definition copy_var (dst src : N) : MM unit :=
    o <~ on_src (read bk src false) ;;
    vcopy MAX_COPY_RECURSION (PVar dst) (option_map (fun o => (o_val o, f_stored (o_fl o))) o).

  (** Node_validate.cpp:473-502: before the method is run *)
  Definition prepare (bin : addr) (name : bytes) (is_init : bool) : M method :=
    s <- get ;;
    (if e_locked E (s_contract s) then ret tt else throw) ;;;
    charge_contract bin ;;;
    b <- opt (e_binary E bin) ;;
    m <- opt (lfind addr_eqb name (b_methods b)) ;;
    (if (if is_init then m_init m else m_public m) then ret tt else throw) ;;;
    load_binary bk (b_const b) (b_code b) ;;;
    ret m.
  (** Node_validate.cpp:592-604: what was sent is taken from the balance in the storage cache *)
  Fixpoint settle (outs : list txout) : M unit :=
    match outs with
    | [] => ret tt
    | o :: outs =>
      s <- get ;;
      let '(n, r) := cache_balance bk (s_ram s) (s_contract s) (to_currency o) in
      match n with
      | Some n =>
        if n <? to_amount o then throw
        else modify (fun s => set_world (mk_world (ram_set_balance r (s_contract s) (to_currency o) (n - to_amount o))
                                                  (w_outs (s_world s) ++ [o])
                                                  (((s_contract s, to_currency o), to_amount o) :: w_spend (s_world s))) s)
      | None => throw
      end ;;; settle outs
    end.
  Definition finish : M unit :=
    s <- get ;;
    settle (s_outs s) ;;;
    modify (fun s => set_world (mk_world (s_ram s) (w_outs (s_world s) ++ s_mints s) (w_spend (s_world s))) s).
  (** instructions that can be executed before the gas is used up *)
  Definition fuel_of (limit : N) : nat := S (N.to_nat (limit / INSTR_COST)).

  (** the local contract_cache, Node_validate.cpp:510-511, 522-525, 563-566; [e_txid] is an address of 32 bytes *)
  Definition fetch (a : addr) : M (option contract) :=
    s <- get ;;
    if addr_eqb a (e_txid E) && match e_deploy E with Some _ => true | None => false end then ret (e_deploy E)
    else if existsb (addr_eqb a) (s_fetched s) then ret (e_contract E a)
    else charge_contract a ;;;
         match e_contract E a with
         | Some c => modify (fun s => set_fetched (a :: s_fetched s) s) ;;; ret (Some c)
         | None => ret None
         end.
  (** Node_validate.cpp:556-572 *)
  Definition read_contract (a : addr) (field : bytes) (dst : N) : M unit :=
    c <- fetch a ;;
    c <- opt c ;;
    assign_var dst (k_field c field) ;;; check_gas.

  (** Node_validate.cpp:574-604 *)
  Definition run_method (remote : list (bytes * addr) -> bytes -> bytes -> N -> M unit) (depends : list (bytes * addr)) (m : method) : M unit :=
    write bk (MEM_EXTERN + EXTERN_HEIGHT) (STmp (VUint (e_height E))) ;;;
    write bk (MEM_EXTERN + EXTERN_TXID) (STmp (VBinary (e_txid E))) ;;;
    s <- get ;;
    execute bk x (remote depends) read_contract (fuel_of (s_limit s)) (m_entry m) (m_const m) ;;;
    finish.

  (** arguments and context of a remote call: Node_validate.cpp:537-544; the child is the first engine *)
  Fixpoint copy_args (n : nat) (i stack_ptr : N) : MM unit :=
    match n with
    | O => ret2 tt
    | S n => _ <~ copy_var (MEM_STACK + 1 + i) (stack_ptr + 1 + i) ;; copy_args n (i + 1) stack_ptr
    end.
  Definition call_setup (nargs stack_ptr : N) (user address : addr) : MM unit :=
    _ <~ copy_args (N.to_nat nargs) 0 stack_ptr ;;
    on_dst (write bk (MEM_EXTERN + EXTERN_USER) (STmp (VBinary user)) ;;;
            write bk (MEM_EXTERN + EXTERN_ADDRESS) (STmp (VBinary address)) ;;;
            write bk (MEM_EXTERN + EXTERN_NETWORK) (STmp (VBinary (e_network E)))).
  (** the call of the child, then the return value: Node_validate.cpp:545-551.  [n]: nested calls. *)
  Definition call_child (run_m : list (bytes * addr) -> method -> M unit) (bin : addr) (depends : list (bytes * addr))
      (name : bytes) (setup : MM unit) : MM unit :=
    _ <~ (if e_hf2 E then ret2 tt else setup) ;;
    m <~ on_dst (prepare bin name false) ;;
    _ <~ (if e_hf2 E then setup else ret2 tt) ;;
    on_dst (run_m depends m).
  (** Node_validate.cpp:513-554.  The engine of the caller is the state of the monad. *)
  Fixpoint remote_call (n : nat) (depends : list (bytes * addr)) (name method : bytes) (nargs : N) {struct n} : M unit :=
    match n with
    | O => fun _ => Fuel
    | S n =>
      address <- opt (lfind addr_eqb name depends) ;;
      c <- fetch address ;;
      c <- opt c ;;
      ex <- opt (k_exec c) ;;
      add_gas (e_fee_exec E) ;;; check_gas ;;;
      f <- get_frame ;;
      fun s =>
        let stack_ptr := MEM_STACK + snd f in
        let child := engine_new address (e_version E) (s_limit s - N.min (s_gas s) (s_limit s)) false (s_world s) in
        match call_child (run_method (remote_call n)) (fst ex) (snd ex) method
                         (call_setup nargs stack_ptr (s_contract s) address) (child, s) with
        | Ok2 _ child s =>
          match copy_var stack_ptr MEM_STACK (set_world (s_world child) s, child) with
          | Ok2 _ s child => (add_gas (s_gas child) ;;; check_gas) s
          | Throw2 s _ => Throw s
          | Undefined2 s _ => Undefined s
          | Fuel2 => Fuel
          end
        | Throw2 child s => Throw (set_world (s_world child) s)
        | Undefined2 child s => Undefined (set_world (s_world child) s)
        | Fuel2 => Fuel
        end
    end.

  (** Node_validate.cpp:399-419: the engine before the method is looked up; [user]: the address whose solution was accepted
      (its contract was read for [user_cost] gas) *)
  Definition start_engine (address : addr) (gas_limit : N) (user : option addr) (w : world) : st :=
    engine_new address (e_version E) gas_limit false w.
  Definition start_setup (address : addr) (user : option addr) : M unit :=
    match user with
    | Some u => charge_contract u ;;; write bk (MEM_EXTERN + EXTERN_USER) (STmp (VBinary u))
    | None => write bk (MEM_EXTERN + EXTERN_USER) (STmp VNil)
    end ;;;
    write bk (MEM_EXTERN + EXTERN_ADDRESS) (STmp (VBinary address)) ;;;
    write bk (MEM_EXTERN + EXTERN_NETWORK) (STmp (VBinary (e_network E))).
  (** Node_validate.cpp:421-428 *)
  Definition add_deposit (deposit : option (addr * N)) : M unit :=
    match deposit with
    | Some (cur, amount) =>
      s <- get ;;
      let '(n, r) := cache_balance bk (s_ram s) (s_contract s) cur in
      modify (set_ram (ram_set_balance r (s_contract s) cur (amount + match n with Some n => n | None => 0 end)))
    | None => ret tt
    end.
  (** Node_validate.cpp:431-436 *)
  Definition op_setup (deposit : option (addr * N)) (args : list vnt) : M unit :=
    match deposit with Some (cur, amount) => set_deposit bk cur amount | None => ret tt end ;;;
    set_args args (MEM_STACK + 1).
  (** Node_validate.cpp:389-463 with 465-606: one operation (or the constructor) of a transaction.  [depth] bounds the
      depth of nested calls.  The caller charges [min gas_used gas_limit], also after an exception (line 446). *)
  Definition exec_call (depth : nat) (ex : addr * list (bytes * addr)) (address : addr) (user : option addr)
      (deposit : option (addr * N)) (name : bytes) (args : list vnt) (is_init : bool) : M unit :=
    start_setup address user ;;;
    add_deposit deposit ;;;
    (if e_hf2 E then ret tt else op_setup deposit args) ;;;
    m <- prepare (fst ex) name is_init ;;
    (if e_hf2 E then op_setup deposit args else ret tt) ;;;
    run_method (remote_call depth) (snd ex) m.

  (** src/Node_api.cpp:889-931 [Node::call_contract] with src/vm_interface.cpp:377-386, from the loading of the binary on.
      The engine works on the database itself ([read_only] for const methods); [remote_call] and [read_contract] are not set:
      src/vm/Engine.cpp:1153-1155, 1169-1171.  The return value is read from [MEM_STACK] of the final state. *)
  Definition call_contract (b : binary) (m : method) (address : addr) (user : option addr) (deposit : option (addr * N))
      (args : list vnt) : M unit :=
    load_binary bk (b_const b) (b_code b) ;;;
    write bk (MEM_EXTERN + EXTERN_TXID) (STmp VNil) ;;;
    write bk (MEM_EXTERN + EXTERN_HEIGHT) (STmp (VUint (e_height E))) ;;;
    write bk (MEM_EXTERN + EXTERN_ADDRESS) (STmp (VBinary address)) ;;;
    write bk (MEM_EXTERN + EXTERN_NETWORK) (STmp (VBinary (e_network E))) ;;;
    write bk (MEM_EXTERN + EXTERN_USER) (STmp (match user with Some u => VBinary u | None => VNil end)) ;;;
    match deposit with Some (cur, amount) => set_deposit bk cur amount | None => ret tt end ;;;
    set_args args (MEM_STACK + 1) ;;;
    s <- get ;;
    begin (m_entry m) ;;;
    run bk x (fun _ _ _ => throw) (fun _ _ _ => throw) (fuel_of (s_limit s)) ;;;
    check_gas.
End EXEC.
