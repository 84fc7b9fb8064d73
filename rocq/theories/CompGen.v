(** The code the compiler makes, as a function of the program instead of the parse tree.  Used in proofs only. *)
Require Import List Arith NArith ZArith Bool String Lia.
From Verif Require Import BytesLib VarModel InstrModel EngineModel CompModel CompSpec.
Import List ListNotations.
Open Scope N_scope.

(** an instruction, and the function it will be linked to *)
Definition ains := (instr * option ident)%type.
Definition ins (op fl a b c : N) : ains := (mk_instr op fl a b c 0, None).
Definition kaddr (v : val) (K : list val) : N * list val :=
  match const_pos v K with Some n => (n, K) | None => (N.of_nat (List.length K), K ++ [v]) end.
Definition gcopy (d s : N) : list ains := if d =? s then [] else [ins OP_COPY 0 d s 0].
Definition is_shift (o : binop) : bool := match o with OShr | OShl => true | _ => false end.
Definition code_of (o : binop) : N := match simple_code (sym o) with Some c => c | None => match o with OShr => OP_SHR | _ => OP_SHL end end.

Section GEN.
  Variable fl : flags.
  Variable text : list node -> bytes.
  Variable fns : list fn.

  Definition gopt (code flags rhs : N) (K : list val) : N * N * N * list val :=
    if ((code =? OP_DIV) || (code =? OP_MOD)) && (rhs <? N.of_nat (List.length K)) && fl_opt fl then
      match nth_error K (N.to_nat rhs) with
      | Some v =>
        match pow2 v with
        | Some count =>
          if code =? OP_DIV then (OP_SHR, 0, count, K)
          else let '(a, K') := kaddr (VUint (2 ^ count - 1)) K in (OP_AND, FLAG_BITWISE, a, K')
        | None => (code, flags, rhs, K)
        end
      | None => (code, flags, rhs, K)
      end
    else (code, flags, rhs, K).

  Definition out := option (list ains * N * N * list val).
  Fixpoint gcopies (d : N) (l : list N) : list ains :=
    match l with [] => [] | a :: l => gcopy d a ++ gcopies (d + 1) l end.
  Fixpoint gdefaults (d : N) (l : list (ident * option val)) (K : list val) : list ains * list val :=
    match l with
    | [] => ([], K)
    | (_, v) :: l =>
      let '(a, K1) := match v with Some v => kaddr v K | None => (0, K) end in
      let '(c, K2) := gdefaults (d + 1) l K1 in (ins OP_COPY 0 d a 0 :: c, K2)
    end.
  Section LISTS.
    Variable g : exp -> N -> list val -> out.
    Fixpoint gexps (l : list exp) (off : N) (K : list val) : option (list ains * list N * N * list val) :=
      match l with
      | [] => Some ([], [], off, K)
      | e :: l =>
        match g e off K with
        | Some (c, a, off1, K1) =>
          match gexps l off1 K1 with
          | Some (c2, r, off2, K2) => Some (c ++ c2, a :: r, off2, K2)
          | None => None
          end
        | None => None
        end
      end.
    Fixpoint gpicks (op dst lhs : N) (l : list exp) (off : N) (K : list val) : option (list ains * N * list val) :=
      match l with
      | [] => Some ([], off, K)
      | e :: l =>
        match g e off K with
        | Some (c, a, off1, K1) =>
          match gpicks op dst dst l off1 K1 with
          | Some (c2, off2, K2) => Some (c ++ ins op 0 dst lhs a :: c2, off2, K2)
          | None => None
          end
        | None => None
        end
      end.
  End LISTS.

  Fixpoint gexp (G : list (ident * variable)) (e : exp) (off : N) (K : list val) {struct e} : out :=
    match e with
    | Lit v => let '(a, K1) := kaddr (val_of v) K in Some ([], a, off, K1)
    | Var x => match lookup_var x G with Some v => Some ([], v_addr v, off, K) | None => None end
    | Not e =>
      match gexp G e off K with
      | Some (c, a, off1, K1) => Some (c ++ [ins OP_NOT 0 (MEM_STACK + off1) a 0], MEM_STACK + off1, off1 + 1, K1)
      | None => None
      end
    | Flip e =>
      match gexp G e off K with
      | Some (c, a, off1, K1) => Some (c ++ [ins OP_NOT FLAG_BITWISE (MEM_STACK + off1) a 0], MEM_STACK + off1, off1 + 1, K1)
      | None => None
      end
    | Bin o a b =>
      match gexp G a off K with
      | Some (c1, a1, off1, K1) =>
        if is_shift o then
          match gexp G b (off1 + 1) K1 with
          | Some (c2, a2, off2, K2) =>
            Some (c1 ++ c2 ++ [ins (code_of o) FLAG_REF_C (MEM_STACK + off1) a1 a2], MEM_STACK + off1, off2, K2)
          | None => None
          end
        else
          match gexp G b off1 K1 with
          | Some (c2, a2, off2, K2) =>
            let '(op, f, rhs, K3) := gopt (code_of o) (op_flags fl (sym o) (code_of o)) a2 K2 in
            Some (c1 ++ c2 ++ [ins op f (MEM_STACK + off2) a1 rhs], MEM_STACK + off2, off2 + 1, K3)
          | None => None
          end
      | None => None
      end
    | Paren e => gexp G e off K
    | Pick least a l =>
      match l with
      | [] => None
      | _ =>
        match gexp G a (off + 1) K with
        | Some (c, a1, off1, K1) =>
          match gpicks (gexp G) (if least then OP_MIN else OP_MAX) (MEM_STACK + off) a1 l off1 K1 with
          | Some (c2, off2, K2) => Some (c ++ c2, MEM_STACK + off, off2, K2)
          | None => None
          end
        | None => None
        end
      end
    | Call f l =>
      match find_fn fns f with
      | Some g =>
        if (List.length (fn_args g) <? List.length l)%nat then None
        else
          match gexps (gexp G) l off K with
          | Some (c, r, off1, K1) =>
            let '(c3, K2) := gdefaults (MEM_STACK + off1 + 1 + N.of_nat (List.length l)) (skipn (List.length l) (fn_args g)) K1 in
            Some (c ++ gcopies (MEM_STACK + off1 + 1) r ++ c3 ++ [(mk_instr OP_CALL 0 (2 ^ 32 - 1) off1 0 0, Some f)],
                  MEM_STACK + off1, off1 + 1, K2)
          | None => None
          end
      | None => None
      end
    end.

  (** code, the new variables, the next free place, constants *)
  Definition sout := option (list ains * list (ident * variable) * N * list val).
  Definition env_t := list (ident * variable).
  Section SLIST.
    Variable g : stmt -> env_t -> N -> list val -> nat -> sout.
    Fixpoint gstmts (l : list stmt) (G : env_t) (off : N) (K : list val) (pos : nat) : sout :=
      match l with
      | [] => Some ([], [], off, K)
      | s :: l =>
        match g s G off K pos with
        | Some (c, D, off1, K1) =>
          match gstmts l (D ++ G) off1 K1 (pos + List.length c) with
          | Some (c2, D2, off2, K2) => Some (c ++ c2, D2 ++ D, off2, K2)
          | None => None
          end
        | None => None
        end
      end.
  End SLIST.
  Definition declare (q : bool) (x : ident) (e : exp) (G : env_t) (off : N) (K : list val) : sout :=
    match gexp G e (off + 1) K with
    | Some (c, a, off1, K1) => Some (c ++ gcopy (MEM_STACK + off) a, [(x, mk_var q (MEM_STACK + off))], off1, K1)
    | None => None
    end.
  Definition fail_text (e : exp) : val :=
    VString (List.map (fun c => Ascii.N_of_ascii c) (list_ascii_of_string "assert(") ++ text (flat e) ++ [41]).
  Fixpoint gstmt (s : stmt) (G : env_t) (off : N) (K : list val) (pos : nat) {struct s} : sout :=
    match s with
    | Let x None => Some (gcopy (MEM_STACK + off) 0, [(x, mk_var false (MEM_STACK + off))], off + 1, K)
    | Let x (Some e) => declare false x e G off K
    | Const x (Lit v) => let '(a, K1) := kaddr (val_of v) K in Some ([], [(x, mk_var true a)], off, K1)
    | Const x e => declare true x e G off K
    | Assign x e =>
      match lookup_var x G with
      | Some v =>
        if v_isconst v then None
        else match gexp G e off K with
             | Some (c, a, off1, K1) => Some (c ++ gcopy (v_addr v) a, [], off1, K1)
             | None => None
             end
      | None => None
      end
    | Update o x e =>
      match lookup_var x G with
      | Some v =>
        match gexp G e off K with
        | Some (c, a, off1, K1) =>
          let '(op, f, rhs, K2) := gopt (code_of o) (op_flags fl (sym o ++ "=") (code_of o)) a K1 in
          Some (c ++ [ins op f (v_addr v) (v_addr v) rhs], [], off1, K2)
        | None => None
        end
      | None => None
      end
    | Step up prefix x =>
      match lookup_var x G with
      | Some v =>
        if v_isconst v then None
        else
          let '(one, K1) := kaddr (VUint 1) K in
          let op := if up then OP_ADD else OP_SUB in
          if prefix then Some ([ins op (math_flags fl) (v_addr v) (v_addr v) one], [], off, K1)
          else Some (gcopy (MEM_STACK + off) (v_addr v) ++ [ins op (math_flags fl) (v_addr v) (MEM_STACK + off) one], [], off + 1, K1)
      | None => None
      end
    | Do e => match gexp G e off K with Some (c, a, off1, K1) => Some (c, [], off1, K1) | None => None end
    | Assert e =>
      match gexp G e off K with
      | Some (c, a, off1, K1) =>
        let '(m, K2) := kaddr (fail_text e) K1 in
        Some (c ++ [ins OP_JUMPI 0 (N.of_nat (pos + List.length c) + 2) a 0; ins OP_FAIL 0 m 0 0], [], off1, K2)
      | None => None
      end
    | Return None => Some ([ins OP_RET 0 0 0 0], [], off, K)
    | Return (Some e) =>
      match gexp G e off K with
      | Some (c, a, off1, K1) => Some (c ++ gcopy MEM_STACK a ++ [ins OP_RET 0 0 0 0], [], off1, K1)
      | None => None
      end
    | Block l => match gstmts gstmt l G off K pos with Some (c, _, _, K1) => Some (c, [], off, K1) | None => None end
    | If c s e =>
      match gexp G c off K with
      | Some (c1, a, off1, K1) =>
        let p1 := (pos + List.length c1 + 1)%nat in
        match gstmt s G off1 K1 p1 with
        | Some (c2, D, off2, K2) =>
          match e with
          | None => Some (c1 ++ ins OP_JUMPN 0 (N.of_nat (p1 + List.length c2)) a 0 :: c2, D, off2, K2)
          | Some e =>
            let p2 := (p1 + List.length c2 + 1)%nat in
            match gstmt e (D ++ G) off2 K2 p2 with
            | Some (c3, D3, off3, K3) =>
              Some (c1 ++ ins OP_JUMPN 0 (N.of_nat p2) a 0 :: c2 ++ ins OP_JUMP 0 (N.of_nat (p2 + List.length c3)) 0 0 :: c3,
                    D3 ++ D, off3, K3)
            | None => None
            end
          end
        | None => None
        end
      | None => None
      end
    | While c s =>
      match gexp G c off K with
      | Some (c1, a, off1, K1) =>
        let p1 := (pos + List.length c1 + 1)%nat in
        match gstmt s G off1 K1 p1 with
        | Some (c2, D, off2, K2) =>
          Some (c1 ++ ins OP_JUMPN 0 (N.of_nat (p1 + List.length c2 + 1)) a 0 :: c2 ++ [ins OP_JUMP 0 (N.of_nat pos) 0 0], D, off2, K2)
        | None => None
        end
      | None => None
      end
    | For init c post s =>
      match gstmts gstmt init G off K pos with
      | Some (c0, D0, off0, K0) =>
        let p0 := (pos + List.length c0)%nat in
        match gexp (D0 ++ G) c off0 K0 with
        | Some (c1, a, off1, K1) =>
          let p1 := (p0 + List.length c1 + 1)%nat in
          match gstmt s (D0 ++ G) off1 K1 p1 with
          | Some (c2, D2, off2, K2) =>
            match gstmts gstmt post (D2 ++ D0 ++ G) off2 K2 (p1 + List.length c2) with
            | Some (c3, D3, off3, K3) =>
              Some (c0 ++ c1 ++ ins OP_JUMPN 0 (N.of_nat (p1 + List.length c2 + List.length c3 + 1)) a 0
                       :: c2 ++ c3 ++ [ins OP_JUMP 0 (N.of_nat p0) 0 0], [], off, K3)
            | None => None
            end
          | None => None
          end
        | None => None
        end
      | None => None
      end
    end.
End GEN.
