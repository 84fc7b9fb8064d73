(** * What a sync must do, told by its record of events alone

    A record has the newest event first.  "Before" in a record is further down
    the list. *)
From Coq Require Import List NArith ZArith Bool.
Require Import Verif.SynModel.
Import ListNotations.
Local Open Scope N_scope.

Definition not_start (e : ev) : Prop := match e with EStart _ => False | _ => True end.
Definition not_done (e : ev) : Prop := match e with EDone => False | _ => True end.

(** In the record [x], the current sync began at last committed height [r];
    [t] happened since, [a] before. *)
Definition this_sync (x : list ev) (r : N) (t a : list ev) : Prop :=
  x = t ++ EStart r :: a /\ Forall not_start t.

Definition is_req (h : N) (e : ev) : bool := match e with EReq g => g =? h | _ => false end.
Definition is_reply (h : N) (e : ev) : bool :=
  match e with EAns g _ => g =? h | EFail g => g =? h | _ => false end.
Definition is_empty_answer (e : ev) : bool := match e with EAns _ 0 => true | _ => false end.
Definition is_retry (e : ev) : bool := match e with ERetry _ => true | _ => false end.

Definition count (f : ev -> bool) (l : list ev) : nat := length (filter f l).

(** No request of [a] is outstanding. *)
Definition settled (a : list ev) : Prop := forall h, count (is_req h) a = count (is_reply h) a.

(** A height was answered, or answered with blocks. *)
Definition answered (t : list ev) (h : N) : Prop := exists n, In (EAns h n) t.
Definition answered_with_blocks (t : list ev) (h : N) : Prop := exists n, n <> 0 /\ In (EAns h n) t.

(** A request for the height failed and the height was not asked for again. *)
Definition given_up (t : list ev) (h : N) : Prop :=
  exists b a, t = b ++ EFail h :: a /\ ~ In (EReq h) b.

(** Every sync or search for the end began with no request outstanding. *)
Definition quiet (x : list ev) : Prop :=
  forall b e a, x = b ++ e :: a ->
    match e with EStart _ | ERetry _ => settled a | _ => True end.
