(** What contract source means, independently of the compiler and of the machine.

    A small language: numbers below 2^256, true, false and null; local variables and constants; functions that call each other.
    [flat], [tree_of] and [source_of] write a program down as the grammar reads it; [eval], [exec] and [call] say what it does. *)
Require Import List NArith ZArith Bool String.
From Verif Require Import BytesLib VarModel CompModel.
Import List ListNotations.
Open Scope N_scope.

Inductive value := Null | Bool (b : bool) | Num (n : N).
Inductive binop := OMul | ODiv | OMod | OAdd | OSub | OShr | OShl | OLt | OGt | OLe | OGe | ONe | OEq
                 | OBitAnd | OBitXor | OBitOr | OAnd | OXor | OOr.
Inductive exp :=
| Lit (v : value)
| Var (x : ident)
| Not (e : exp)                              (** [!e] *)
| Flip (e : exp)                             (** [~e] *)
| Bin (o : binop) (a b : exp)
| Paren (e : exp)
| Pick (least : bool) (a : exp) (l : list exp)  (** [min(a, ..)], [max(a, ..)] *)
| Call (f : ident) (l : list exp).
Inductive stmt :=
| Let (x : ident) (e : option exp)           (** [let x;] [let x = e;] *)
| Const (x : ident) (e : exp)                (** [const x = e;] *)
| Assign (x : ident) (e : exp)               (** [x = e;] *)
| Update (o : binop) (x : ident) (e : exp)   (** [x += e;] and so on *)
| Step (up prefix : bool) (x : ident)        (** [x++;] [x--;] [++x;] [--x;] *)
| Do (e : exp)                               (** [e;] *)
| Assert (e : exp)                           (** [assert(e);] *)
| Return (e : option exp)
| Block (l : list stmt)                      (** [{ .. }] *)
| If (c : exp) (s : stmt) (e : option stmt)
| While (c : exp) (s : stmt)
| For (init : list stmt) (c : exp) (post : list stmt) (s : stmt).
Record func := mk_func { sf_name : ident; sf_args : list (ident * option value); sf_const : bool; sf_body : list stmt }.
Record prog := mk_prog { sp_consts : list (ident * value); sp_fns : list func }.

(** *** Writing a program down *)
Definition sym (o : binop) : string :=
  (match o with
  | OMul => "*" | ODiv => "/" | OMod => "%" | OAdd => "+" | OSub => "-" | OShr => ">>" | OShl => "<<"
  | OLt => "<" | OGt => ">" | OLe => "<=" | OGe => ">=" | ONe => "!=" | OEq => "=="
  | OBitAnd => "&" | OBitXor => "^" | OBitOr => "|" | OAnd => "&&" | OXor => "^^" | OOr => "||"
  end)%string.
Definition val_of (v : value) : val := match v with Null => VNil | Bool b => if b then VTrue else VFalse | Num n => VUint n end.
Fixpoint flat (e : exp) : list node :=
  match e with
  | Lit v => [NConst (val_of v)]
  | Var x => [NId x]
  | Not e => NOp "!" :: flat e
  | Flip e => NOp "~" :: flat e
  | Bin o a b => flat a ++ NOp (sym o) :: flat b
  | Paren e => [NSub [flat e]]
  | Pick least a l => [NId (if least then "min" else "max")%string; NSub (flat a :: map flat l)]
  | Call f l => [NId f; NSub (map flat l)]
  end.
Definition step_sym (up : bool) : string := (if up then "++" else "--")%string.
Fixpoint tree_of (s : stmt) : tree :=
  match s with
  | Let x e => TVar QLet x (option_map flat e)
  | Const x e => TVar QConst x (Some (flat e))
  | Assign x e => TExpr (NId x :: NOp "=" :: flat e)
  | Update o x e => TExpr (NId x :: NOp (sym o ++ "=")%string :: flat e)
  | Step up prefix x => TExpr (if prefix then [NOp (step_sym up); NId x] else [NId x; NOp (step_sym up)])
  | Do e => TExpr (flat e)
  | Assert e => TExpr [NId "assert"; NSub [flat e]]
  | Return e => TExpr (NOp "return" :: match e with Some e => flat e | None => [] end)
  | Block l => TScope (map tree_of l)
  | If c s e => TIf (flat c) (tree_of s) (match e with Some e => Some (tree_of e) | None => None end)
  | While c s => TWhile (flat c) (tree_of s)
  | For init c post s => TFor (map tree_of init) (flat c) (map tree_of post) (tree_of s)
  end.
Definition fn_of (f : func) : fn :=
  mk_fn (sf_name f) (map (fun a => (fst a, option_map val_of (snd a))) (sf_args f)) false (sf_const f)
        (TScope (map tree_of (sf_body f))).
Definition source_of (p : prog) : program :=
  mk_program (map (fun c => (fst c, val_of (snd c))) (sp_consts p)) (map fn_of (sp_fns p)).

(** *** Reading without parentheses: the customary order of C and JavaScript, all operators from left to right.
    [^^] is in neither language; it is placed between [&&] and [||]. *)
Definition level_op (o : binop) : N :=
  match o with
  | OMul | ODiv | OMod => 5 | OAdd | OSub => 6 | OShr | OShl => 7 | OLt | OGt | OLe | OGe => 8 | ONe | OEq => 9
  | OBitAnd => 10 | OBitXor => 11 | OBitOr => 12 | OAnd => 13 | OXor => 14 | OOr => 15
  end.
Definition level (e : exp) : N := match e with Bin o _ _ => level_op o | Not _ | Flip _ => 4 | _ => 0 end.
(** [e] is the tree that those rules make of [flat e] *)
Fixpoint customary (e : exp) : bool :=
  match e with
  | Lit _ | Var _ => true
  | Not e | Flip e => customary e && (level e <=? 4)
  | Bin o a b => customary a && customary b && (level a <=? level_op o) && (level b <? level_op o)
  | Paren e => customary e
  | Pick _ a l => customary a && forallb customary l
  | Call _ l => forallb customary l
  end.
(** no operator on bits next to one on truth values, unless there are parentheses *)
Definition bitwise (o : binop) : bool := match o with OBitAnd | OBitXor | OBitOr => true | _ => false end.
Definition logical (o : binop) : bool := match o with OAnd | OXor | OOr => true | _ => false end.
Definition mixes (o : binop) (e : exp) : bool :=
  match e with Bin o' _ _ => (bitwise o && logical o') || (logical o && bitwise o') | _ => false end.
Fixpoint unmixed (e : exp) : bool :=
  match e with
  | Lit _ | Var _ => true
  | Not e | Flip e | Paren e => unmixed e
  | Bin o a b => unmixed a && unmixed b && negb (mixes o a) && negb (mixes o b)
  | Pick _ a l => unmixed a && forallb unmixed l
  | Call _ l => forallb unmixed l
  end.
(** the same expression with parentheses around every operand *)
Fixpoint full (e : exp) : exp :=
  match e with
  | Lit _ | Var _ => e
  | Not e => Not (Paren (full e))
  | Flip e => Flip (Paren (full e))
  | Bin o a b => Bin o (Paren (full a)) (Paren (full b))
  | Paren e => Paren (full e)
  | Pick b a l => Pick b (full a) (map full l)
  | Call f l => Call f (map full l)
  end.

(** *** Meaning.  [Fail]: the transaction fails.  [Open]: nothing is said (too little [fuel], an unknown name, or a shift by
    2^64 or more). *)
Inductive res (A : Type) := Val (a : A) | Fail | Open.
Arguments Val {A}. Arguments Fail {A}. Arguments Open {A}.
Definition andthen {A B} (r : res A) (k : A -> res B) : res B := match r with Val a => k a | Fail => Fail | Open => Open end.

Definition truth (v : value) : bool := match v with Null => false | Bool b => b | Num n => negb (n =? 0) end.
Definition same (a b : value) : bool :=
  match a, b with
  | Null, Null => true
  | Bool a, Bool b => Bool.eqb a b
  | Num a, Num b => a =? b
  | _, _ => false
  end.
(** numbers are ordered; any other value can be compared with an equal one only *)
Definition order (num : N -> N -> bool) (refl : bool) (a b : value) : res value :=
  match a, b with
  | Num a, Num b => Val (Bool (num a b))
  | _, _ => if same a b then Val (Bool refl) else Fail
  end.
Definition TOP := 2 ^ 256.
(** [catch]: the contract was compiled to stop on overflow; otherwise numbers wrap *)
Definition binary_op (catch : bool) (o : binop) (a b : value) : res value :=
  match o, a, b with
  | OAdd, Num a, Num b => if a + b <? TOP then Val (Num (a + b)) else if catch then Fail else Val (Num (a + b - TOP))
  | OSub, Num a, Num b => if b <=? a then Val (Num (a - b)) else if catch then Fail else Val (Num (a + TOP - b))
  | OMul, Num a, Num b => if a * b <? TOP then Val (Num (a * b)) else if catch then Fail else Val (Num (a * b mod TOP))
  | ODiv, Num a, Num b => if b =? 0 then Fail else Val (Num (a / b))
  | OMod, Num a, Num b => if b =? 0 then Fail else Val (Num (a mod b))
  | OShl, Num a, Num b => if b <? 2 ^ 64 then Val (Num (if b <? 256 then a * 2 ^ b mod TOP else 0)) else Open
  | OShr, Num a, Num b => if b <? 2 ^ 64 then Val (Num (a / 2 ^ b)) else Open
  | OBitAnd, Num a, Num b => Val (Num (N.land a b))
  | OBitXor, Num a, Num b => Val (Num (N.lxor a b))
  | OBitOr, Num a, Num b => Val (Num (N.lor a b))
  | OAnd, a, b => Val (Bool (truth a && truth b))
  | OXor, a, b => Val (Bool (xorb (truth a) (truth b)))
  | OOr, a, b => Val (Bool (truth a || truth b))
  | OEq, a, b => Val (Bool (same a b))
  | ONe, a, b => Val (Bool (negb (same a b)))
  | OLt, a, b => order N.ltb false a b
  | OGt, a, b => order (fun x y => y <? x) false a b
  | OLe, a, b => order N.leb true a b
  | OGe, a, b => order (fun x y => y <=? x) true a b
  | _, _, _ => Fail
  end.
Definition pick_op (least : bool) (a b : value) : res value :=
  match a, b with
  | Num a, Num b => Val (Num (if least then N.min a b else N.max a b))
  | _, _ => Fail
  end.

(** variables in scope, the innermost first; the flag marks constants.  A block forgets what was declared in it. *)
Definition env := list (ident * (bool * value)).
Fixpoint assign (x : ident) (v : value) (r : env) : env :=
  match r with
  | [] => []
  | (y, (c, w)) :: r => if String.eqb x y then (y, (c, v)) :: r else (y, (c, w)) :: assign x v r
  end.
Definition leave (r r' : env) : env := skipn (List.length r' - List.length r) r'.
Inductive flow := Go (r : env) | Back (v : value).

Section MEANING.
  Variable catch : bool.
  Variable p : prog.
  Definition globals : env := rev (map (fun c => (fst c, (true, snd c))) (sp_consts p)).
  Definition find_func (f : ident) : option func := List.find (fun g => String.eqb (sf_name g) f) (sp_fns p).
  (** arguments that are missing get their default value, or null *)
  Fixpoint bind_args (l : list (ident * option value)) (vs : list value) : env :=
    match l with
    | [] => []
    | (x, dflt) :: l =>
      bind_args l (tl vs) ++
      [(x, (false, match vs with v :: _ => v | [] => match dflt with Some v => v | None => Null end end))]
    end.

  Fixpoint each {A} (f : A -> res value) (l : list A) : res (list value) :=
    match l with
    | [] => Val []
    | a :: l => andthen (f a) (fun v => andthen (each f l) (fun vs => Val (v :: vs)))
    end.
  Fixpoint picks {A} (f : A -> res value) (least : bool) (v : value) (l : list A) : res value :=
    match l with
    | [] => Val v
    | a :: l => andthen (f a) (fun w => andthen (pick_op least v w) (fun v => picks f least v l))
    end.
  Fixpoint seq {A} (f : env -> A -> res flow) (r : env) (l : list A) : res flow :=
    match l with
    | [] => Val (Go r)
    | a :: l => andthen (f r a) (fun o => match o with Go r => seq f r l | Back v => Val (Back v) end)
    end.

  (** [d]: how many calls may still be nested *)
  Fixpoint eval (fuel d : nat) (r : env) (e : exp) {struct fuel} : res value :=
    match fuel with
    | O => Open
    | S n =>
      match e with
      | Lit v => Val v
      | Var x => match lookup_var x r with Some (_, v) => Val v | None => Open end
      | Not e => andthen (eval n d r e) (fun v => Val (Bool (negb (truth v))))
      | Flip e => andthen (eval n d r e) (fun v => match v with Num n => Val (Num (TOP - 1 - n)) | _ => Fail end)
      | Bin o a b => andthen (eval n d r a) (fun v => andthen (eval n d r b) (fun w => binary_op catch o v w))
      | Paren e => eval n d r e
      | Pick least a l => andthen (eval n d r a) (fun v => picks (fun e => eval n d r e) least v l)
      | Call f l => andthen (each (fun e => eval n d r e) l) (fun vs => call n d f vs)
      end
    end
  with call (fuel d : nat) (f : ident) (vs : list value) {struct fuel} : res value :=
    match fuel, d with
    | O, _ => Open
    | S n, O => match find_func f with Some g => Fail | None => Open end
    | S n, S d => match find_func f with Some g => body n d g vs | None => Open end
    end
  with body (fuel d : nat) (g : func) (vs : list value) {struct fuel} : res value :=
    match fuel with
    | O => Open
    | S n =>
      if (List.length (sf_args g) <? List.length vs)%nat then Open
      else andthen (exec n d (bind_args (sf_args g) vs ++ globals) (Block (sf_body g)))
                   (fun o => Val (match o with Go _ => Null | Back v => v end))
    end
  with exec (fuel d : nat) (r : env) (s : stmt) {struct fuel} : res flow :=
    match fuel with
    | O => Open
    | S n =>
      let change x (f : value -> res value) :=
        match lookup_var x r with
        | Some (true, _) => Fail
        | Some (false, v) => andthen (f v) (fun w => Val (Go (assign x w r)))
        | None => Open
        end in
      match s with
      | Let x None => Val (Go ((x, (false, Null)) :: r))
      | Let x (Some e) => andthen (eval n d r e) (fun v => Val (Go ((x, (false, v)) :: r)))
      | Const x e => andthen (eval n d r e) (fun v => Val (Go ((x, (true, v)) :: r)))
      | Assign x e => andthen (eval n d r e) (fun v => change x (fun _ => Val v))
      | Update o x e => andthen (eval n d r e) (fun w => change x (fun v => binary_op catch o v w))
      | Step up _ x => change x (fun v => binary_op catch (if up then OAdd else OSub) v (Num 1))
      | Do e => andthen (eval n d r e) (fun _ => Val (Go r))
      | Assert e => andthen (eval n d r e) (fun v => if truth v then Val (Go r) else Fail)
      | Return None => Val (Back Null)
      | Return (Some e) => andthen (eval n d r e) (fun v => Val (Back v))
      | Block l =>
        andthen (seq (fun r s => exec n d r s) r l)
                (fun o => Val (match o with Go r' => Go (leave r r') | Back v => Back v end))
      | If c s e =>
        andthen (eval n d r c)
                (fun v => if truth v then exec n d r s else match e with Some e => exec n d r e | None => Val (Go r) end)
      | While c s => loop n d r c [] s
      | For init c post s =>
        andthen (seq (fun r s => exec n d r s) r init)
                (fun o => match o with
                          | Go r1 => andthen (loop n d r1 c post s)
                                             (fun o => Val (match o with Go r' => Go (leave r r') | Back v => Back v end))
                          | Back v => Val (Back v)
                          end)
      end
    end
  with loop (fuel d : nat) (r : env) (c : exp) (post : list stmt) (s : stmt) {struct fuel} : res flow :=
    match fuel with
    | O => Open
    | S n =>
      andthen (eval n d r c)
              (fun v => if truth v
                        then andthen (exec n d r s)
                               (fun o => match o with
                                         | Go r => andthen (seq (fun r s => exec n d r s) r post)
                                                     (fun o => match o with Go r => loop n d r c post s | Back v => Val (Back v) end)
                                         | Back v => Val (Back v)
                                         end)
                        else Val (Go r))
    end.
End MEANING.

(** *** What the theorems ask of a program *)
Definition declares (s : stmt) : bool := match s with Let _ _ | Const _ _ => true | _ => false end.
Definition updatable (o : binop) : bool :=
  match o with OAdd | OSub | OMul | ODiv | OBitAnd | OBitXor | OBitOr | OAnd | OXor | OOr => true | _ => false end.
Definition small (v : value) : bool := match v with Num n => n <? TOP | _ => true end.
(** numbers are below 2^256, and only functions of the contract are called *)
Fixpoint proper (e : exp) : bool :=
  match e with
  | Lit v => small v
  | Var _ => true
  | Not e | Flip e | Paren e => proper e
  | Bin _ a b => proper a && proper b
  | Pick _ a l => proper a && forallb proper l
  | Call f l => negb (is_in f builtin_names) && forallb proper l
  end.
Definition plain_exp (e : exp) : bool := customary e && unmixed e && proper e.
Definition is_lit (e : exp) : bool := match e with Lit _ => true | _ => false end.
(** - expressions are written in the customary way and [proper];
    - what is behind if, else, while and for( ) is not a bare declaration;
    - constants whose value is computed, the names of which are in [K], are not changed with [+=] and the like. *)
Fixpoint plain (K : list ident) (s : stmt) : bool :=
  match s with
  | Let _ None => true
  | Let _ (Some e) | Assign _ e | Do e | Assert e | Return (Some e) => plain_exp e
  | Const x e => plain_exp e && (is_lit e || is_in x K)
  | Update o x e => plain_exp e && updatable o && negb (is_in x K)
  | Step _ _ _ | Return None => true
  | Block l => forallb (plain K) l
  | If c s e => plain_exp c && plain K s && negb (declares s) &&
                match e with Some e => plain K e && negb (declares e) | None => true end
  | While c s => plain_exp c && plain K s && negb (declares s)
  | For init c post s => forallb (plain K) init && plain_exp c && forallb (plain K) post && forallb (fun s => negb (declares s)) post
                         && plain K s && negb (declares s)
  end.
(** [quiet s]: nothing is done, and nothing is written into the binary *)
Fixpoint strip (e : exp) : exp := match e with Paren e => strip e | _ => e end.
Fixpoint quiet (s : stmt) : bool :=
  match s with
  | Do e => match strip e with Lit _ | Var _ => true | _ => false end
  | Const _ e => is_lit e
  | Assign x e => match strip e with Var y => String.eqb x y | _ => false end
  | Block l => forallb quiet l
  | _ => false
  end.
(** [ends_in_return s]: the last thing written in [s] is a return; [returns s]: every way through [s] returns *)
Fixpoint ends_in_return (s : stmt) : bool :=
  match s with
  | Return _ => true
  | Block l => (fix last l := match l with
                              | [] => false
                              | s :: l => if forallb quiet l then ends_in_return s || last l else last l
                              end) l
  | If _ s None => ends_in_return s
  | If _ s (Some e) => ends_in_return e
  | _ => false
  end.
Fixpoint returns (s : stmt) : bool :=
  match s with
  | Return _ => true
  | Block l => existsb returns l
  | If _ s (Some e) => returns s && returns e
  | _ => false
  end.
(** - a function that ends in a return inside of an if returns on every way *)
Definition plain_func (K : list ident) (f : func) : bool :=
  forallb (plain K) (sf_body f) && forallb (fun a => match snd a with Some v => small v | None => true end) (sf_args f) &&
  negb (String.eqb (sf_name f) "init") &&
  (returns (Block (sf_body f)) || negb (ends_in_return (Block (sf_body f)))).
Definition plain_prog (p : prog) : Prop :=
  forallb (fun c => small (snd c)) (sp_consts p) = true /\
  forall f, In f (sp_fns p) -> exists K, plain_func K f = true.

(** *** The same program with parentheses around every operand *)
Fixpoint full_stmt (s : stmt) : stmt :=
  match s with
  | Let x e => Let x (option_map full e)
  | Const x e => Const x (full e)
  | Assign x e => Assign x (full e)
  | Update o x e => Update o x (full e)
  | Step up prefix x => Step up prefix x
  | Do e => Do (full e)
  | Assert e => Assert (full e)
  | Return e => Return (option_map full e)
  | Block l => Block (map full_stmt l)
  | If c s e => If (full c) (full_stmt s) (match e with Some e => Some (full_stmt e) | None => None end)
  | While c s => While (full c) (full_stmt s)
  | For init c post s => For (map full_stmt init) (full c) (map full_stmt post) (full_stmt s)
  end.
Definition full_func (f : func) : func := mk_func (sf_name f) (sf_args f) (sf_const f) (map full_stmt (sf_body f)).
Definition full_prog (p : prog) : prog := mk_prog (sp_consts p) (map full_func (sp_fns p)).
