(** What merging signatures should do *)
Require Import List Arith NArith.
From Verif Require Import MsgModel.
Import ListNotations.
Open Scope N_scope.
(** Every input has a solution that is there, or none *)
Definition proper (a : tx) : Prop := forall x k, In (x, k) (inputs a) -> k < size (sols a) \/ k = no_solution.
(** The first of some answers *)
Fixpoint first (l : list (option N)) : option N := match l with [] => None | Some x :: _ => Some x | None :: r => first r end.
