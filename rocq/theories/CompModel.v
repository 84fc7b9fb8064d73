(** The contract compiler: from parse trees to instructions.
    Models /repo/src/vm/Compiler.cpp, lines 346-2261.

    What is modelled: functions with arguments and default values, local variables and constants, top-level constants with a
    literal value, blocks, if / else, while, for, return, every operator except ".", calls of functions of the contract, and
    the built-in functions min, max, fail and assert.
    What is not: reading the text (the lexy grammar, lines 35-303; a model program starts as the tree that grammar makes),
    static variables, arrays, objects, "." and [], interfaces, for .. of, import, the other built-in functions, line numbers and
    debug output.  Where the compiler meets one of these the model says [CUnmod], which is neither success nor an error.

    - A C++ exception is [CErr].
    - Addresses are [uint32_t] and positions [size_t] in C++; no wrap is modelled.
    - C++ does not fix the order in which the arguments of a call are evaluated.  It matters at one place only, [OP_JUMPI] of
      assert: there the last argument is evaluated first, which is what GCC does. *)
Require Import List NArith ZArith Bool String Ascii.
From Verif Require Import BytesLib VarModel InstrModel EngineModel.
Import List ListNotations.
Open Scope N_scope.

Definition ident := string.

(** The children of a lang::expression node, Compiler.cpp:247-254.  A [constant] stands for its value (lines 848-902). *)
Inductive node :=
| NId (x : ident)
| NConst (v : val)
| NOp (op : string)
| NSub (args : list (list node)).
Arguments NId _%string. Arguments NOp _%string.

(** lang::qualifier, Compiler.cpp:208-211: let and var mean the same *)
Inductive qual := QLet | QConst.
(** lang::scope, variable, statement, if_ex / else_ex, while_loop, for_loop: Compiler.cpp:164-167, 213-217, 256-291 *)
Inductive tree :=
| TScope (l : list tree)
| TVar (q : qual) (x : ident) (init : option (list node))
| TExpr (e : list node)
| TIf (c : list node) (body : tree) (els : option tree)
| TWhile (c : list node) (body : tree)
| TFor (init : list tree) (c : list node) (post : list tree) (body : tree).

(** function_t, Compiler.cpp:356-365, as filled in by the first pass (lines 1025-1111) *)
Record fn := mk_fn { fn_name : ident; fn_args : list (ident * option val); fn_static : bool; fn_const : bool; fn_body : tree }.
Definition fn_init (f : fn) : bool := fn_static f || String.eqb (fn_name f) "init".
(** a source file; [p_consts]: the declarations [const x = literal;] outside functions *)
Record program := mk_program { p_consts : list (ident * val); p_fns : list fn }.
(** compile_flags_t: catch_overflow, opt_level > 0 *)
Record flags := mk_flags { fl_catch : bool; fl_opt : bool }.

(** variable_t, frame_t, vref_t: Compiler.cpp:348-415.  [r_func]: the name of the function. *)
Record variable := mk_var { v_isconst : bool; v_addr : N }.
Record frame := mk_frame { f_off : N; f_vars : list (ident * variable) }.
Record vref := mk_vref { r_const : bool; r_addr : N; r_func : option ident; r_name : option ident }.
Definition NO_ADDR := 2 ^ 32 - 1.
Definition no_vref := mk_vref false NO_ADDR None None.
Definition at_addr (a : N) := mk_vref false a None None.
(** Compiler.cpp:402-414 *)
Definition check_value (r : vref) : bool :=
  match r_func r with
  | Some _ => false
  | None => match r_name r with Some _ => negb (r_addr r =? NO_ADDR) | None => true end
  end.

(** The members of the compiler that change, Compiler.cpp:467-494.  [c_frames] has the innermost scope first. *)
Record cst := mk_cst { c_code : list instr; c_frames : list frame; c_consts : list val; c_links : list (nat * ident) }.
Inductive cres (A : Type) := COk (a : A) (s : cst) | CErr | COut | CUnmod.
Arguments COk {A}. Arguments CErr {A}. Arguments COut {A}. Arguments CUnmod {A}.
Definition C (A : Type) := cst -> cres A.
Definition cret {A} (a : A) : C A := fun s => COk a s.
Definition cerr {A} : C A := fun _ => CErr.
Definition cout {A} : C A := fun _ => COut.
Definition cunmod {A} : C A := fun _ => CUnmod.
Definition cbind {A B} (m : C A) (k : A -> C B) : C B :=
  fun s => match m s with COk a s' => k a s' | CErr => CErr | COut => COut | CUnmod => CUnmod end.
Notation "'let!' x ':=' m 'in' k" := (cbind m (fun x => k)) (at level 200, x strict pattern, m at level 200, k at level 200).
Notation "'do!' m 'in' k" := (cbind m (fun _ => k)) (at level 200, m at level 200, k at level 200).
Definition crequire (b : bool) : C unit := if b then cret tt else cerr.

(** code.emplace_back, code.size(), and [code\[pos\].a = a] *)
Definition emit (op fl a b c : N) : C unit :=
  fun s => COk tt (mk_cst (c_code s ++ [mk_instr op fl a b c 0]) (c_frames s) (c_consts s) (c_links s)).
Definition here : C nat := fun s => COk (List.length (c_code s)) s.
Definition set_a (a : N) (i : instr) : instr := mk_instr (i_code i) (i_flags i) a (i_b i) (i_c i) (i_d i).
Fixpoint update {A} (n : nat) (f : A -> A) (l : list A) : list A :=
  match l, n with
  | [], _ => []
  | x :: l, O => f x :: l
  | x :: l, S n => x :: update n f l
  end.
Definition patch (pos : nat) (a : N) : C unit :=
  fun s => COk tt (mk_cst (update pos (set_a a) (c_code s)) (c_frames s) (c_consts s) (c_links s)).
Definition link_to (f : ident) : C unit :=
  fun s => COk tt (mk_cst (c_code s) (c_frames s) (c_consts s) (c_links s ++ [(List.length (c_code s), f)])).
(** frame_t::new_addr on the innermost frame, Compiler.cpp:373-375 *)
Definition new_addr : C N :=
  fun s => match c_frames s with
           | f :: fs => COk (MEM_STACK + f_off f) (mk_cst (c_code s) (mk_frame (f_off f + 1) (f_vars f) :: fs) (c_consts s) (c_links s))
           | [] => CErr
           end.
Fixpoint lookup_var {V} (x : ident) (l : list (ident * V)) : option V :=
  match l with [] => None | (y, v) :: l => if String.eqb x y then Some v else lookup_var x l end.
(** frame_t::add_variable, Compiler.cpp:376-383 *)
Definition add_variable (x : ident) (v : variable) : C unit :=
  fun s => match c_frames s with
           | f :: fs => match lookup_var x (f_vars f) with
                        | Some _ => CErr
                        | None => COk tt (mk_cst (c_code s) (mk_frame (f_off f) ((x, v) :: f_vars f) :: fs) (c_consts s) (c_links s))
                        end
           | [] => CErr
           end.
(** Compiler.cpp:2106-2118 *)
Definition push_scope : C unit :=
  fun s => COk tt (mk_cst (c_code s) (mk_frame (match c_frames s with f :: _ => f_off f | [] => 0 end) [] :: c_frames s) (c_consts s) (c_links s)).
Definition pop_scope : C unit := fun s => COk tt (mk_cst (c_code s) (tl (c_frames s)) (c_consts s) (c_links s)).
(** Compiler.cpp:2195-2229; [const_table] is searched by value *)
Fixpoint const_pos (v : val) (l : list val) : option N :=
  match l with
  | [] => None
  | w :: l => if (compare v w =? 0)%Z then Some 0 else match const_pos v l with Some n => Some (n + 1) | None => None end
  end.
Definition get_const (v : val) : C N :=
  fun s => match const_pos v (c_consts s) with
           | Some n => COk n s
           | None => COk (N.of_nat (List.length (c_consts s))) (mk_cst (c_code s) (c_frames s) (c_consts s ++ [v]) (c_links s))
           end.

(** opcodes, include/mmx/vm/instr_t.h:30-85 *)
Definition OP_COPY := 0x02.
Definition OP_JUMP := 0x04.
Definition OP_JUMPI := 0x05.
Definition OP_JUMPN := 0x06.
Definition OP_CALL := 0x07.
Definition OP_RET := 0x08.
Definition OP_ADD := 0x20.
Definition OP_SUB := 0x21.
Definition OP_MUL := 0x22.
Definition OP_DIV := 0x23.
Definition OP_MOD := 0x24.
Definition OP_NOT := 0x40.
Definition OP_XOR := 0x41.
Definition OP_AND := 0x42.
Definition OP_OR := 0x43.
Definition OP_MIN := 0x44.
Definition OP_MAX := 0x45.
Definition OP_SHL := 0x46.
Definition OP_SHR := 0x47.
Definition OP_CMP_EQ := 0x60.
Definition OP_CMP_NEQ := 0x61.
Definition OP_CMP_LT := 0x62.
Definition OP_CMP_GT := 0x63.
Definition OP_CMP_LTE := 0x64.
Definition OP_CMP_GTE := 0x65.
Definition OP_FAIL := 0xC4.
Definition FLAG_REF_B := 2.
Definition FLAG_REF_C := 4.
Definition FLAG_CATCH := 32.
Definition FLAG_BITWISE := 64.

(** rank_map, Compiler.cpp:508-554, and get_node_rank, lines 904-919; [None]: "missing rank" *)
Definition is_in (op : string) (l : list string) : bool := existsb (String.eqb op) l.
Definition op_rank (op : string) : option Z :=
  (if is_in op ["."] then Some 2
   else if is_in op ["++"; "--"] then Some 6
   else if is_in op ["!"; "~"] then Some 7
   else if is_in op ["*"; "/"; "%"] then Some 8
   else if is_in op ["+"; "-"] then Some 9
   else if is_in op [">>"; "<<"] then Some 10
   else if is_in op ["<"; ">"; "<="; ">="] then Some 11
   else if is_in op ["!="; "=="] then Some 12
   else if is_in op ["&"; "&&"] then Some 13
   else if is_in op ["^"; "^^"] then Some 14
   else if is_in op ["|"; "||"] then Some 15
   else if is_in op ["="; "+="; "-="; "*="; "/="; "^="; "&="; "|="; "^^="; "&&="; "||="; ">>="; "<<="] then Some 16
   else if is_in op ["return"] then Some 17
   else None)%string%Z.
Definition node_rank (n : node) : option Z :=
  match n with
  | NConst _ => Some 0%Z
  | NId _ => Some 1%Z
  | NSub _ => Some 4%Z
  | NOp op => op_rank op
  end.
(** simple_code_map, Compiler.cpp:556-572 *)
Definition simple_code (op : string) : option N :=
  (if is_in op ["+"] then Some OP_ADD
   else if is_in op ["-"] then Some OP_SUB
   else if is_in op ["*"] then Some OP_MUL
   else if is_in op ["/"] then Some OP_DIV
   else if is_in op ["%"] then Some OP_MOD
   else if is_in op ["&"; "&&"] then Some OP_AND
   else if is_in op ["|"; "||"] then Some OP_OR
   else if is_in op ["^"; "^^"] then Some OP_XOR
   else if is_in op [">"] then Some OP_CMP_GT
   else if is_in op ["<"] then Some OP_CMP_LT
   else if is_in op [">="] then Some OP_CMP_GTE
   else if is_in op ["<="] then Some OP_CMP_LTE
   else if is_in op ["!="] then Some OP_CMP_NEQ
   else if is_in op ["=="] then Some OP_CMP_EQ
   else None)%string.
(** [op.back() == '='] and [op.substr(0, op.size() - 1)] *)
Fixpoint strip_eq (op : string) : option string :=
  match op with
  | EmptyString => None
  | String c EmptyString => if Ascii.eqb c "=" then Some EmptyString else None
  | String c r => match strip_eq r with Some r => Some (String c r) | None => None end
  end.

Section COMPILE.
  Variable fl : flags.
  (** source text of an expression: to_source, Compiler.cpp:806-827 *)
  Variable text : list node -> bytes.
  (** the finished first pass, and the function being compiled *)
  Variable fns : list fn.
  Variable globals : list (ident * variable).
  Variable cur_const : bool.

  Definition math_flags : N := if fl_catch fl then FLAG_CATCH else 0.
  Definition builtin_names : list string :=
    ["__nop"; "__copy"; "size"; "push"; "pop"; "set"; "get"; "min"; "max"; "clone"; "deref"; "erase"; "delete"; "typeof";
     "concat"; "memcpy"; "send"; "mint"; "fail"; "log"; "event"; "read"; "bech32"; "binary"; "binary_le"; "binary_hex"; "bool";
     "uint"; "uint_le"; "uint_hex"; "sha256"; "ecdsa_verify"; "string"; "string_hex"; "string_bech32"; "rcall"; "balance";
     "is_uint"; "is_string"; "is_binary"; "is_array"; "is_map"; "assert"]%string.
  (** Compiler.cpp:2161-2176, 2186-2193 *)
  Definition find_variable (s : cst) (x : ident) : option variable :=
    lookup_var x (concat (map f_vars (c_frames s)) ++ globals).
  Definition find_fn (x : ident) : option fn := List.find (fun f => String.eqb (fn_name f) x) fns.
  Definition is_function (x : ident) : bool := is_in x builtin_names || match find_fn x with Some _ => true | None => false end.

  (** Compiler.cpp:2120-2140 without keys *)
  Definition copy (dst src : vref) : C vref :=
    if check_value src && check_value dst && negb (r_const dst) then
      do! (if r_addr dst =? r_addr src then cret tt else emit OP_COPY 0 (r_addr dst) (r_addr src) 0) in cret dst
    else cerr.
  (** Compiler.cpp:2142-2159 without keys *)
  Definition get (r : vref) : C N := if check_value r then cret (r_addr r) else cerr.

  (** Compiler.cpp:1454-1474 *)
  Definition op_flags (op : string) (code : N) : N :=
    if (OP_ADD <=? code) && (code <=? OP_MOD) then math_flags
    else if (OP_XOR <=? code) && (code <=? OP_OR) then
      (if is_in op ["^"; "&"; "|"; "^="; "&="; "|="]%string then FLAG_BITWISE else 0)
    else 0.
  (** Compiler.cpp:1477-1513: division by a power of two; counting the zeros at the end of a power of two gives its logarithm *)
  Definition pow2 (v : val) : option N :=
    match v with
    | VUint n => if negb (n =? 0) && (N.land n (n - 1) =? 0) then Some (N.log2 n) else None
    | _ => None
    end.
  Definition optimize (code flags rhs : N) : C (N * N * N) :=
    fun s =>
      if ((code =? OP_DIV) || (code =? OP_MOD)) && (rhs <? N.of_nat (List.length (c_consts s))) && fl_opt fl then
        match nth_error (c_consts s) (N.to_nat rhs) with
        | Some v =>
          match pow2 v with
          | Some count =>
            if code =? OP_DIV then COk (OP_SHR, 0, count) s
            else (let! a := get_const (VUint (2 ^ count - 1)) in cret (OP_AND, FLAG_BITWISE, a)) s
          | None => COk (code, flags, rhs) s
          end
        | None => COk (code, flags, rhs) s
        end
      else COk (code, flags, rhs) s.

  Fixpoint mapC {A B} (f : A -> C B) (l : list A) : C (list B) :=
    match l with
    | [] => cret []
    | a :: l => let! b := f a in let! bs := mapC f l in cret (b :: bs)
    end.

  Section NODE.
    (** [recurse_expr] of one level below *)
    Variable rec : list node -> option vref -> Z -> C (vref * list node).
    (** [recurse] on a lang::expression node, Compiler.cpp:1335-1345 *)
    Definition sub_with (ns : list node) : C vref :=
      let! (r, rest) := rec ns None (-1)%Z in
      match rest with
      | [] => if check_value r then cret r else cerr
      | _ => cerr
      end.

    (** the operators of simple_code_map and their assignments: Compiler.cpp:1441-1527 *)
    Definition simple_op (op : string) (code : N) (assign : bool) (lhs : option vref) (rank : Z) (ns : list node) : C (vref * list node) :=
      match lhs, ns with
      | None, _ => cerr
      | Some _, [] => cerr
      | Some l, _ =>
        let! (r, rest) := rec ns None rank in
        let! rhs := get r in
        let! (code, flags, rhs) := optimize code (op_flags op code) rhs in
        if assign then
          if check_value l then do! emit code flags (r_addr l) (r_addr l) rhs in cret (l, rest) else cerr
        else
          let! out := new_addr in
          let! a := get l in
          do! emit code flags out a rhs in cret (at_addr out, rest)
      end.
    (** Compiler.cpp:1437-1640 *)
    Definition operator (op : string) (rank : Z) (lhs : option vref) (ns : list node) : C (vref * list node) :=
      match simple_code op with
      | Some code => simple_op op code false lhs rank ns
      | None =>
        match match strip_eq op with Some base => simple_code base | None => None end with
        | Some code => simple_op op code true lhs rank ns
        | None =>
          if String.eqb op "=" then
            match lhs, ns with
            | Some l, _ :: _ =>
              if r_const l then cerr
              else let! (r, rest) := rec ns None rank in let! out := copy l r in cret (out, rest)
            | _, _ => cerr
            end
          else if String.eqb op "." then cunmod
          else if is_in op ["!"; "~"]%string then
            match lhs, ns with
            | None, _ :: _ =>
              let! (r, rest) := rec ns None rank in
              let! out := new_addr in
              let! a := get r in
              do! emit OP_NOT (if String.eqb op "~" then FLAG_BITWISE else 0) out a 0 in cret (at_addr out, rest)
            | _, _ => cerr
            end
          else if is_in op ["++"; "--"]%string then
            let code := if String.eqb op "++" then OP_ADD else OP_SUB in
            match lhs, ns with
            | Some l, _ =>
              if r_const l then cerr
              else
                let! out := new_addr in
                do! copy (at_addr out) l in
                let! one := get_const (VUint 1) in
                do! emit code math_flags (r_addr l) out one in
                do! copy l (at_addr (r_addr l)) in cret (at_addr out, ns)
            | None, _ :: _ =>
              let! (out, rest) := rec ns None rank in
              if r_const out then cerr
              else
                let! one := get_const (VUint 1) in
                do! emit code math_flags (r_addr out) (r_addr out) one in
                do! copy out (at_addr (r_addr out)) in cret (out, rest)
            | None, [] => cerr
            end
          else if is_in op [">>"; "<<"]%string then
            match lhs with
            | None => cerr
            | Some l =>
              let! out := new_addr in
              let! (r, rest) := rec ns None rank in
              let! b := get r in
              let! a := get l in
              do! emit (if String.eqb op ">>" then OP_SHR else OP_SHL) FLAG_REF_C out a b in cret (at_addr out, rest)
            end
          else if String.eqb op "return" then
            match lhs, ns with
            | Some _, _ => cerr
            | None, [] => do! emit OP_RET 0 0 0 0 in cret (no_vref, [])
            | None, _ =>
              let! (r, rest) := rec ns None rank in
              do! copy (at_addr MEM_STACK) r in
              do! emit OP_RET 0 0 0 0 in cret (no_vref, rest)
            end
          else cerr
        end
      end.

    (** min and max, Compiler.cpp:1697-1707 *)
    Fixpoint pick (code out lhs : N) (args : list (list node)) : C unit :=
      match args with
      | [] => cret tt
      | e :: args =>
        let! r := sub_with e in let! a := get r in
        do! emit code 0 out lhs a in pick code out out args
      end.
    (** arguments behind the stack pointer of the callee, Compiler.cpp:2007-2014 *)
    Fixpoint copy_args (dst : N) (l : list vref) : C unit :=
      match l with
      | [] => cret tt
      | r :: l => do! copy (at_addr dst) r in copy_args (dst + 1) l
      end.
    Fixpoint default_args (dst : N) (l : list (ident * option val)) : C unit :=
      match l with
      | [] => cret tt
      | (_, v) :: l =>
        let! a := match v with Some v => get_const v | None => cret 0 end in
        do! emit OP_COPY 0 dst a 0 in default_args (dst + 1) l
      end.
    (** Compiler.cpp:1641-2043, [lhs] names a function *)
    Definition call_fn (f : ident) (args : list (list node)) : C vref :=
      if is_in f ["min"; "max"]%string then
        match args with
        | e :: e2 :: args' =>
          let! out := new_addr in
          let! r := sub_with e in let! a := get r in
          do! pick (if String.eqb f "min" then OP_MIN else OP_MAX) out a (e2 :: args') in cret (at_addr out)
        | _ => cerr
        end
      else if String.eqb f "fail" then
        match args with
        | [e] => let! r := sub_with e in let! a := get r in do! emit OP_FAIL 0 a 0 0 in cret (at_addr 0)
        | [e; c] =>
          let! r2 := sub_with c in let! b := get r2 in
          let! r := sub_with e in let! a := get r in
          do! emit OP_FAIL FLAG_REF_B a b 0 in cret (at_addr 0)
        | _ => cerr
        end
      else if String.eqb f "assert" then
        match args with
        | [] => cerr
        | c :: args' =>
          match args' with
          | _ :: _ :: _ :: _ => cerr
          | _ =>
            let! r := sub_with c in let! cond := get r in
            let! pos := here in
            do! emit OP_JUMPI 0 (N.of_nat pos + 2) cond 0 in
            match args' with
            | [e] => let! r := sub_with e in let! a := get r in do! emit OP_FAIL 0 a 0 0 in cret (at_addr 0)
            | [e; d] =>
              let! r2 := sub_with d in let! b := get r2 in
              let! r := sub_with e in let! a := get r in
              do! emit OP_FAIL FLAG_REF_B a b 0 in cret (at_addr 0)
            | _ =>
              let! a := get_const (VString (List.map (fun c => N_of_ascii c) (list_ascii_of_string "assert(") ++ text c ++ [41])) in
              do! emit OP_FAIL 0 a 0 0 in cret (at_addr 0)
            end
          end
        end
      else match find_fn f with
      | Some g =>
        if is_in f builtin_names then cunmod
        else if cur_const && negb (fn_const g) then cerr
        else if (List.length (fn_args g) <? List.length args)%nat then cerr
        else
          let! refs := mapC sub_with args in
          let! off := new_addr in
          do! copy_args (off + 1) refs in
          do! default_args (off + 1 + N.of_nat (List.length args)) (skipn (List.length args) (fn_args g)) in
          do! link_to f in
          do! emit OP_CALL 0 (2 ^ 32 - 1) (off - MEM_STACK) 0 in cret (at_addr off)
      | None => cunmod
      end.

    (** the body of [recurse_expr] behind the check of ranks, Compiler.cpp:1386-2104 *)
    Definition one_node (n : node) (rank : Z) (lhs : option vref) (ns : list node) : C (vref * list node) :=
      match n with
      | NId x =>
        match lhs with
        | Some _ => cerr
        | None => fun s =>
          COk (match find_variable s x with
               | Some v => mk_vref (v_isconst v) (v_addr v) None (Some x)
               | None => if is_function x then mk_vref false 0 (Some x) (Some x) else mk_vref false NO_ADDR None (Some x)
               end, ns) s
        end
      | NConst v =>
        match lhs with
        | Some _ => cerr
        | None => let! a := get_const v in cret (mk_vref true a None None, ns)
        end
      | NOp op => operator op rank lhs ns
      | NSub args =>
        match lhs with
        | Some l =>
          match r_func l with
          | Some f => let! out := call_fn f args in cret (out, ns)
          | None => cerr
          end
        | None => match args with [e] => let! out := sub_with e in cret (out, ns) | _ => cerr end
        end
      end.
  End NODE.

  (** recurse_expr, Compiler.cpp:1360-2104; one unit of [fuel] is used per call *)
  Fixpoint expr (fuel : nat) (ns : list node) (lhs : option vref) (lhs_rank : Z) : C (vref * list node) :=
    match fuel with
    | O => cout
    | S fuel =>
      match ns with
      | [] => cret (match lhs with Some r => r | None => no_vref end, [])
      | n :: ns' =>
        match node_rank n with
        | None => cerr
        | Some rank =>
          if (0 <=? lhs_rank)%Z && (lhs_rank <=? rank)%Z then
            match lhs with None => cerr | Some r => cret (r, ns) end
          else
            let! (out, rest) := one_node (expr fuel) n rank lhs ns' in
            expr fuel rest (Some out) lhs_rank
        end
      end
    end.
  Definition sub (fuel : nat) (ns : list node) : C vref := sub_with (expr fuel) ns.
  Definition sub_get (fuel : nat) (ns : list node) : C N := let! r := sub fuel ns in get r.

  (** recurse, Compiler.cpp:971-1358: lang::scope (1001-1009), variable (1145-1196), if (1209-1235), while (1236-1248),
      for (1249-1327), statement and expression (1328-1345) *)
  Fixpoint tree_code (fuel : nat) (t : tree) : C unit :=
    let all := fix all (l : list tree) : C unit :=
      match l with [] => cret tt | t :: l => do! tree_code fuel t in all l end in
    match t with
    | TScope l => do! push_scope in do! all l in pop_scope
    | TVar q x init =>
      match q, init with
      | QConst, Some [NConst v] => let! a := get_const v in add_variable x (mk_var true a)
      | _, _ =>
        let! a := new_addr in
        do! match init with
            | Some e => let! r := sub fuel e in copy (at_addr a) r
            | None => copy (at_addr a) (at_addr 0)
            end in
        add_variable x (mk_var (match q with QConst => true | QLet => false end) a)
      end
    | TExpr e => do! sub fuel e in cret tt
    | TIf c body els =>
      let! cond := sub_get fuel c in
      let! jump := here in
      do! emit OP_JUMPN 0 (2 ^ 32 - 1) cond 0 in
      do! tree_code fuel body in
      match els with
      | Some e =>
        let! skip := here in
        do! emit OP_JUMP 0 (2 ^ 32 - 1) 0 0 in
        let! pos := here in
        do! patch jump (N.of_nat pos) in
        do! tree_code fuel e in
        let! pos := here in patch skip (N.of_nat pos)
      | None => let! pos := here in patch jump (N.of_nat pos)
      end
    | TWhile c body =>
      let! begin := here in
      let! cond := sub_get fuel c in
      let! jump := here in
      do! emit OP_JUMPN 0 (2 ^ 32 - 1) cond 0 in
      do! tree_code fuel body in
      do! emit OP_JUMP 0 (N.of_nat begin) 0 0 in
      let! pos := here in patch jump (N.of_nat pos)
    | TFor init c post body =>
      do! push_scope in
      do! all init in
      let! begin := here in
      let! cond := sub_get fuel c in
      let! jump := here in
      do! emit OP_JUMPN 0 (2 ^ 32 - 1) cond 0 in
      do! tree_code fuel body in
      do! all post in
      do! emit OP_JUMP 0 (N.of_nat begin) 0 0 in
      let! pos := here in
      do! patch jump (N.of_nat pos) in
      pop_scope
    end.

  Definition set_frames (l : list frame) : C unit := fun s => COk tt (mk_cst (c_code s) l (c_consts s) (c_links s)).
  (** arguments lie behind the return value, Compiler.cpp:1049-1051, 1124-1128 *)
  Fixpoint add_args (l : list (ident * option val)) (a : N) : C unit :=
    match l with
    | [] => cret tt
    | (x, _) :: l => do! add_variable x (mk_var false a) in add_args l (a + 1)
    end.
  Definition last_is_ret (l : list instr) : bool := match rev l with i :: _ => i_code i =? OP_RET | [] => false end.
  (** the second pass over a function, Compiler.cpp:1112-1143; the result is its address *)
  Definition fn_code (fuel : nat) (f : fn) : C nat :=
    let! pos := here in
    do! set_frames [mk_frame (1 + N.of_nat (List.length (fn_args f))) []] in
    do! add_args (fn_args f) (MEM_STACK + 1) in
    do! (if fn_init f then let! a := new_addr in emit OP_CALL 0 0 (a - MEM_STACK) 0 else cret tt) in
    do! emit OP_COPY 0 MEM_STACK 0 0 in
    do! tree_code fuel (fn_body f) in
    do! set_frames [] in
    do! (fun s => if last_is_ret (c_code s) then COk tt s else emit OP_RET 0 0 0 0 s) in
    cret pos.
End COMPILE.

(** function_map is a std::map: ordered by name *)
Fixpoint insert_fn (f : fn) (l : list fn) : list fn :=
  match l with
  | [] => [f]
  | g :: l' => match String.compare (fn_name f) (fn_name g) with Lt => f :: l | _ => g :: insert_fn f l' end
  end.
Definition sort_fns (l : list fn) : list fn := fold_right insert_fn [] l.
Fixpoint no_dups (l : list string) : bool :=
  match l with [] => true | x :: l => negb (is_in x l) && no_dups l end.

(** contract::Binary, as far as the machine reads it: constant, binary, and methods with their entry points *)
Record binary := mk_binary { b_consts : list val; b_code : list instr; b_methods : list (ident * N) }.

Section PROGRAM.
  Variable fl : flags.
  Variable text : list node -> bytes.
  (** top-level constants, Compiler.cpp:1145-1196 with [frame.size() == 1] *)
  Fixpoint global_consts (l : list (ident * val)) (acc : list (ident * variable)) : C (list (ident * variable)) :=
    match l with
    | [] => cret acc
    | (x, v) :: l =>
      match lookup_var x acc with
      | Some _ => cerr
      | None => let! a := get_const v in global_consts l ((x, mk_var true a) :: acc)
      end
    end.
  (** Compiler.cpp:712-717 *)
  Fixpoint fns_code (fuel : nat) (fns : list fn) (globals : list (ident * variable)) (l : list fn) : C (list (ident * N)) :=
    match l with
    | [] => cret []
    | f :: l =>
      let! pos := fn_code fl text fns globals (fn_const f) fuel f in
      let! rest := fns_code fuel fns globals l in
      cret ((fn_name f, N.of_nat pos) :: rest)
    end.
  (** Compiler.cpp:718-724 *)
  Fixpoint link (methods : list (ident * N)) (l : list (nat * ident)) (code : list instr) : option (list instr) :=
    match l with
    | [] => Some code
    | (pos, f) :: l =>
      match lookup_var f methods with
      | Some a => link methods l (update pos (set_a a) code)
      | None => None
      end
    end.
  (** Compiler::compile, Compiler.cpp:633-775.  Address zero is the null value (lines 627-630).  With no static variables the
      code of the first pass is a return (lines 1015-1018). *)
  Definition compile (fuel : nat) (p : program) : cres binary :=
    if no_dups (map fn_name (p_fns p)) && negb (existsb (fun f => is_in (fn_name f) builtin_names) (p_fns p)) then
      (let! globals := global_consts (p_consts p) [] in
       do! emit OP_RET 0 0 0 0 in
       let! methods := fns_code fuel (p_fns p) globals (sort_fns (p_fns p)) in
       fun s => match link methods (c_links s) (c_code s) with
                | Some code => COk (mk_binary (c_consts s) code methods) s
                | None => CErr
                end)
      (mk_cst [] [] [VNil] [])
    else CErr.
End PROGRAM.
