(** Who should be paid for the VDF *)
Require Import List Arith NArith.
From Verif Require Import VrwModel.
Import ListNotations.
Open Scope N_scope.

(** A chain of blocks, the oldest first: each is the one before the next, and the place is the height; before the first there is nothing *)
Definition chain (find : N -> option header) (l : list header) : Prop :=
  (forall i b c, nth_error l i = Some b -> nth_error l (S i) = Some c -> find (h_prev c) = Some b) /\
  (forall b, nth_error l 0 = Some b -> find (h_prev b) = None) /\
  (forall i b, nth_error l i = Some b -> h_height b = N.of_nat i).
(** Heights from [a] to before [b] *)
Definition between (a b : nat) (l : list header) : list header := firstn (b - a) (skipn a l).
(** All addresses named in some blocks *)
Definition named (l : list header) : list N := flat_map h_addrs l.
Definition times (a : N) (l : list N) : N := N.of_nat (count_occ N.eq_dec l a).
(** [a] is named most often in [w]; of several that are, its hash is the least (and if even the hashes are equal, itself) *)
Definition most (h : N -> N) (w : list N) (a : N) : Prop := In a w /\
  forall b, In b w -> b <> a -> times b w < times a w \/ (times b w = times a w /\ (h a < h b \/ (h a = h b /\ a < b))).
Definition sum (l : list N) : N := fold_right N.add 0 l.
(** Points lead from one output of the VDF to another *)
Fixpoint linked (from : N) (l : list point) (to : N) : Prop :=
  match l with [] => from = to | p :: r => p_input p = from /\ linked (p_output p) r to end.
