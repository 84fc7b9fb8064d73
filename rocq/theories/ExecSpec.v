(** What the theorems about contract calls talk about *)
Require Import List NArith Bool.
From Verif Require Import BytesLib OrdLib VarModel InstrModel EngineModel EngineSpec ExecModel.
Import ListNotations.
Open Scope N_scope.

(** what an address in memory shows to the program: memory first, then storage (above [MEM_STATIC]) *)
Definition visible (bk : backend) (s : st) (a : N) : option val :=
  match cell s (LMem a) with
  | Some o => if f_deleted (o_fl o) then None else Some (o_val o)
  | None =>
    if MEM_STATIC <=? a then
      match cache_read bk (s_ram s) (s_contract s) a with
      | Some v => if f_deleted (sv_fl v) then None else Some (sv_val v)
      | None => None
      end
    else None
  end.
(** the address an operand stands for: stack addresses are relative to the frame, a flag follows a reference *)
Definition base_addr (s : st) (a : N) : option N :=
  if (MEM_STACK <=? a) && (a <? MEM_STATIC) then
    match s_frames s with
    | f :: _ => if MEM_STATIC <=? a + snd f then None else Some (a + snd f)
    | [] => None
    end
  else Some a.
Definition operand (bk : backend) (s : st) (a : N) (flag : bool) : option N :=
  match base_addr s a with
  | None => None
  | Some b => if flag then match visible bk s b with
                           | Some (VRef t) => Some t
                           | Some _ => Some b
                           | None => None
                           end
              else Some b
  end.
(** what a call starts with: the deposit is on the contract *)
Definition deposited (deposit : option (addr * N)) (address c cur : addr) : N :=
  match deposit with
  | Some (cur', n) => if addr_eqb address c && addr_eqb cur' cur then n else 0
  | None => 0
  end.
(** [m] succeeds a number of times, one after the other *)
Inductive steps (m : M unit) : nat -> st -> st -> Prop :=
| steps_0 s : steps m 0 s s
| steps_S n s1 s2 s3 : m s1 = Ok tt s2 -> steps m n s2 s3 -> steps m (S n) s1 s3.
(** the element [k] of an array below [MEM_STATIC] *)
Definition visible_at (s : st) (a k : N) : option val :=
  match cell s (LEnt a k) with
  | Some o => if f_deleted (o_fl o) then None else Some (o_val o)
  | None => None
  end.
(** what was sent by one contract between two points *)
Definition sent (w w' : world) (c cur : addr) : N := spent w' c cur - spent w c cur.
(** the mathematical result of ADD, SUB, MUL, DIV and MOD *)
Definition exact_result (code L R D : N) : Prop :=
  (code = 0x20 -> D = L + R) /\ (code = 0x21 -> D + R = L) /\ (code = 0x22 -> D = L * R) /\
  (code = 0x23 -> R <> 0 /\ D = L / R) /\ (code = 0x24 -> R <> 0 /\ D = L mod R).

(** the contract of an address during a transaction, and whether it is executable *)
Definition contract_of (E : env) (a : addr) : option contract :=
  if addr_eqb a (e_txid E) && match e_deploy E with Some _ => true | None => false end then e_deploy E else e_contract E a.
Definition runs (E : env) (a : addr) : bool :=
  match contract_of E a with Some c => match k_exec c with Some _ => true | None => false end | None => false end.
