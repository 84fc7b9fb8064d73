(** The liquidity of users in swaps as the node keeps and reports it: what Node::apply writes to swap_liquid_map and Node::get_swap_liquidity_by reads.
    /repo/src/Node.cpp:1221-1262, src/Node_api.cpp:1431-1456.  The swaps themselves: SwapModel.v. *)
Require Import List Arith NArith Bool.
From Verif Require Import BytesLib OrdLib EngineModel CtrModel SwapModel.
Import List ListNotations.
Open Scope N_scope.
Import Swap.

(** addr_t(), addr_t::ones() *)
Definition zeros : addr := repeat 0 32.
Definition ones : addr := repeat 255 32.

(** How a call comes to a swap: as an operation of a transaction that has the address of the swap; as an operation whose address is addr_t(), which stands for
    the contract that the same transaction deploys (Node.cpp:1224); or from another contract. *)
Inductive via := Named | Fresh | Inner.
(** [o_arg]: whether the call of a method with an optional first argument has one *)
Record op := mk_op { o_swap : addr; o_via : via; o_arg : bool; o_env : env; o_method : method }.
(** What is on the chain.  Only calls of transactions that did not fail are there (Node.cpp:1082). *)
Inductive step := Deploy (s token currency : addr) | Exec (o : op) | Pay (s cur : addr) (amount : N).

(** The swaps: variables and balances *)
Definition world : Type := addr -> option (vars * (addr -> N)).
Definition set_swap (w : world) (s : addr) (x : vars * (addr -> N)) : world := fun a => if addr_eqb a s then Some x else w a.
(** swap_liquid_map; std::pair is compared from left to right *)
Definition pair_cmp : addr * addr -> addr * addr -> comparison := lexcmp bytescmp bytescmp.
Definition pair_ltb (x y : addr * addr) : bool := match pair_cmp x y with Lt => true | _ => false end.
Definition records : Type := list ((addr * addr) * N2).

(** entry.args[0] as a number; [None]: there is none.  A bool is converted to 0 or 1. *)
Definition b2n (b : bool) : N := if b then 1 else 0.
Definition first_arg (o : op) : option N :=
  match o_method o with
  | Payout => None
  | AddLiquid i _ | RemLiquid i _ _ | Trade i _ _ _ => Some (b2n i)
  | RemAllLiquid dry => if o_arg o then Some (b2n dry) else None
  | SwitchPool n => Some n
  end.
(** arithmetic of uint128 *)
Definition add128 (x y : N) : N := (x + y) mod 2 ^ 128.
Definition sub128 (x y : N) : N := (x + (2 ^ 128 - y mod 2 ^ 128)) mod 2 ^ 128.
(** Node.cpp:1241-1262 *)
Definition note (o : op) (r : records) : records :=
  match o_via o with
  | Inner => r
  | v =>
    match e_user (o_env o), first_arg o with
    | Some u, Some x =>
      let k := (u, match v with Fresh => zeros | _ => o_swap o end) in
      let index := x mod 2 ^ 32 in
      if index <? 2 then
        let i := index =? 1 in
        let b := match aget pair_cmp k r with Some b => b | None => (0, 0) end in
        match o_method o with
        | AddLiquid _ _ => match e_deposit (o_env o) with Some (_, n) => aset pair_cmp k (upd2 i (add128 (at2 i b) n) b) r | None => r end
        | RemLiquid _ n _ => aset pair_cmp k (upd2 i (sub128 (at2 i b) n) b) r
        | RemAllLiquid _ => aset pair_cmp k (0, 0) r
        | _ => r
        end
      else r
    | _, _ => r
    end
  end.

(** [None]: it cannot happen *)
Definition advance (x : world * records) (st : step) : option (world * records) :=
  let (w, r) := x in
  match st with
  | Deploy s token currency =>
    match w s, init token currency with None, Some v => Some (set_swap w s (v, fun _ => 0), r) | _, _ => None end
  | Exec o =>
    match w (o_swap o) with
    | Some (v, bal) => match exec (o_method o) (o_env o) (begin (o_env o) v bal) with
                       | Some (_, c) => Some (set_swap w (o_swap o) (c_vars c, c_bal c), note o r)
                       | None => None
                       end
    | None => None
    end
  | Pay s cur amount => match w s with Some (v, bal) => Some (set_swap w s (v, credit bal cur amount), r) | None => None end
  end.
Fixpoint run (x : world * records) (l : list step) : option (world * records) :=
  match l with [] => Some x | st :: l => match advance x st with Some x => run x l | None => None end end.
Definition genesis : world * records := (fun _ => None, []).

(** ** Node_api.cpp:1431-1456 *)
(** the rows of an address, 1435-1436 *)
Definition rows_of (r : records) (a : addr) : records := filter (fun x => negb (pair_ltb (fst x) (a, zeros)) && pair_ltb (fst x) (a, ones)) r.
(** 1437-1442: swaps[...] += ... *)
Definition accumulate (m : list (addr * N2)) (x : (addr * addr) * N2) : list (addr * N2) :=
  let b := match aget bytescmp (snd (fst x)) m with Some b => b | None => (0, 0) end in
  aset bytescmp (snd (fst x)) (add128 (fst b) (fst (snd x)), add128 (snd b) (snd (snd x))) m.
Definition collect (r : records) (addresses : list addr) : list (addr * N2) :=
  fold_left (fun m a => fold_left accumulate (rows_of r a) m) addresses [].
(** 1444-1454.  get_swap_info throws when there is no such contract (1228-1231); otherwise only its tokens are used. *)
Fixpoint describe (w : world) (m : list (addr * N2)) : option (list (addr * ((addr * N) * (addr * N)))) :=
  match m with
  | [] => Some []
  | (s, b) :: m =>
    match w s, describe w m with
    | Some (v, _), Some l => Some ((s, ((fst (tokens v), fst b), (snd (tokens v), snd b))) :: l)
    | _, _ => None
    end
  end.
Definition get_swap_liquidity_by (x : world * records) (addresses : list addr) : option (list (addr * ((addr * N) * (addr * N)))) :=
  describe (fst x) (collect (snd x) addresses).
