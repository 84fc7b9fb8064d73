(** Independent notions for the plot encodings. *)
Require Import List NArith.
Import ListNotations.
Open Scope N_scope.

(** a bit stream as one number, least significant word first *)
Fixpoint wval (ws : list N) : N := match ws with [] => 0 | w :: r => w + 2 ^ 64 * wval r end.
(** a symbol s takes 2 * (s / 3) + 2 bits *)
Fixpoint stream_bits (syms : list N) : N := match syms with [] => 0 | s :: r => 2 * (s / 3) + 2 + stream_bits r end.
(** x choose 2 *)
Definition tri (x : N) : N := x * (x - 1) / 2.
