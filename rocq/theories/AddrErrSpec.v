(** Mistyped strings. *)
Require Import List NArith.
Open Scope N_scope.
(** the number of places where two strings of equal length differ *)
Definition wrong (s t : list N) : nat := length (filter (fun p => negb (fst p =? snd p)) (combine s t)).
