(** Conditions on what happens to a timelord. *)
Require Import List Arith NArith Bool.
Import ListNotations.
From Verif Require Import VdfModel TimelordModel.
Open Scope N_scope.

Definition requests (l : list event) : list request := flat_map (fun e => match e with Req r => [r] | _ => [] end) l.
(** two requests ask for the same interval or for intervals that do not overlap *)
Definition consistent (rs : list request) : Prop :=
  (forall r, In r rs -> r_start r < r_end r) /\
  (forall r q, In r rs -> In q rs -> (r_start r = r_start q /\ r_end r = r_end q) \/ r_end r <= r_start q \/ r_end q <= r_start r).

(** the infusion of a request that waits is among the last thousand *)
Definition kept (s : state) : Prop :=
  forall e r, In (e, r) (t_pending s) -> (length (filter (fun z => (r_start r <=? fst z)%N) (t_infuse s)) <= 1000)%nat.

Section CALM.
  Variable H : N -> N.
  Variable H2 : N -> N -> N.
  Variables (segment_iters : N) (max_history : nat) (reward : N).
  (** [P] holds whenever a queued update runs, [Q] whenever the VDF is stopped *)
  Fixpoint whenever (P Q : state -> Prop) (s : state) (l : list event) : Prop :=
    match l with
    | [] => True
    | e :: l =>
      match e with
      | Update => (0 < t_tasks s)%nat -> P s
      | Stop => Q s
      | _ => True
      end /\ whenever P Q (fst (step H H2 segment_iters max_history reward s e)) l
    end.
  (** updates run while no restart waits for the thread; nothing is pending when the VDF is stopped *)
  Definition calm : state -> list event -> Prop := whenever (fun s => t_reset s = false /\ kept s) (fun s => t_pending s = []).
End CALM.
