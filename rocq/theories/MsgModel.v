(** Merging the signatures of several parties (src/Transaction.cpp).  A solution is a number; what an input spends is one too. *)
Require Import List Arith NArith Bool.
From Verif Require Import PrsModel FrmModel.
Import ListNotations.
Open Scope N_scope.

(** interface/txin_t.vni: address, contract, amount and so on as one number, and [solution], an ushort; interface/Transaction.vni: inputs, execute (operations, with [solution] too: interface/Operation.vni), solutions *)
Record tx := mk_tx { inputs : list (N * N); execute : list (N * N); sols : list N }.
Definition size (l : list N) : N := N.of_nat (length l).
(** interface/txin_t.vni:12 NO_SOLUTION, (ushort)-1 *)
Definition no_solution : N := 2 ^ 16 - 1.

(** src/Transaction.cpp:266-282, the loop; [other]: solutions of the other one; [l]: solutions so far; [m]: import_map *)
Fixpoint merge_loop (ours theirs : list (N * N)) (other l : list N) (m : list (N * N)) : list (N * N) * list N :=
  match ours, theirs with
  | (x, k) :: ours', (_, j) :: theirs' =>
    if (j <? size other) && (size l <=? k) then
      match get j m with
      | Some n => let '(r, s) := merge_loop ours' theirs' other l m in ((x, n) :: r, s)
      | None => let n := size l mod 2 ^ 16 in
                let '(r, s) := merge_loop ours' theirs' other (l ++ [nth (N.to_nat j) other 0]) (put j n m) in ((x, n) :: r, s)
      end
    else let '(r, s) := merge_loop ours' theirs' other l m in ((x, k) :: r, s)
  | _, _ => (ours, l)
  end.
(** src/Transaction.cpp:263-283 merge_sign *)
Definition merge_sign (a b : tx) : tx := let '(r, s) := merge_loop (inputs a) (inputs b) (sols b) (sols a) [] in mk_tx r (execute a) s.
(** src/Transaction.cpp:285-294 is_signed *)
Definition is_signed (a : tx) : bool := forallb (fun e => negb (size (sols a) <=? snd e)) (inputs a).
(** src/Transaction.cpp:196-202 get_solution, of an input and of an operation *)
Definition solution_of (a : tx) (i : nat) : option N := match nth_error (inputs a) i with Some (_, k) => nth_error (sols a) (N.to_nat k) | None => None end.
Definition solution_of_op (a : tx) (i : nat) : option N := match nth_error (execute a) i with Some (_, k) => nth_error (sols a) (N.to_nat k) | None => None end.
