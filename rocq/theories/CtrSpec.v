(** What the contracts promise, in terms of histories of calls *)
Require Import List Arith NArith Bool.
From Verif Require Import BytesLib EngineModel CtrModel.
Import ListNotations.
Open Scope N_scope.

(** an entry of a history: what happened, what was paid, what was minted *)
Definition entry (M : Type) : Type := (event M * list payment * list (addr * N))%type.
Definition ev_of {M} (x : entry M) : event M := fst (fst x).
Definition paid_by {M} (x : entry M) : list payment := snd (fst x).
Definition minted_by {M} (x : entry M) : list (addr * N) := snd x.
(** an event is a call by [a] *)
Definition called_by {M} (ev : event M) (a : addr) : Prop := exists e m, ev = Call e m /\ e_user e = Some a.
(** all payments of a list go to [a] *)
Definition all_to (a : addr) (l : list payment) : Prop := Forall (fun p => pm_to p = a) l.
(** the sum of what was paid in a currency, and of what came in *)
Definition total_paid (cur : addr) (l : list payment) : N := fold_right (fun p s => (if addr_eqb (pm_currency p) cur then pm_amount p else 0) + s) 0 l.
Definition came_in {M} (cur : addr) (ev : event M) : N :=
  match ev with
  | Call e _ => match e_deposit e with Some (x, n) => if addr_eqb cur x then n else 0 | None => 0 end
  | Receive x n => if addr_eqb cur x then n else 0
  end.
