(** What a versioned table means to its user: the list of surviving writes, oldest first,
    and the current version. Independent of memory tables, logs, blocks and files. *)
Require Import List NArith Bool.
Require Import Verif.DbModel.
Import ListNotations.
Set Implicit Arguments.
Open Scope N_scope.

Section Spec.
  Context {K V : Type} (eqb : K -> K -> bool).

  (** A write: key, version it was made at, value. *)
  Definition write : Type := ((K * N) * V)%type.
  Definition wkey (w : write) := fst (fst w).
  Definition wver (w : write) := snd (fst w).
  Definition wval (w : write) : V := snd w.

  Record spec := mk_spec { a_cur : N; a_writes : list write }.

  Definition a_init : spec := mk_spec 0 [].

  (** the newest write of [k] not newer than [mv] *)
  Definition a_find (a : spec) (k : K) (mv : N) : option V :=
    fold_left (fun acc w => if eqb (wkey w) k && (wver w <=? mv) then Some (wval w) else acc) (a_writes a) None.

  Definition a_insert (k : K) (v : V) (a : spec) : spec :=
    mk_spec (a_cur a) (a_writes a ++ [((k, a_cur a), v)]).

  (** commit to a version that is not higher than the current one (or invalid) is refused *)
  Definition a_commit (n : N) (a : spec) : spec :=
    if (n =? 4294967295) || (n <=? a_cur a) then a else mk_spec n (a_writes a).

  Definition drop_from (n : N) (ws : list write) : list write := filter (fun w => wver w <? n) ws.

  (** revert to a version in the future is refused *)
  Definition a_revert (n : N) (a : spec) : spec :=
    if a_cur a <? n then a else mk_spec n (drop_from n (a_writes a)).

  (** Possible states after the process died and the table was opened again: exactly the writes made before
      the current version (that is, before the last commit or revert) survive; the version reported is at
      most the old one and above every surviving write. *)
  Definition a_survives (a a' : spec) : Prop :=
    a_writes a' = drop_from (a_cur a) (a_writes a) /\
    a_cur a' <= a_cur a /\
    Forall (fun w => wver w < a_cur a') (a_writes a').

  (** The effect of one public write call ([op], [event] of DbModel.v are only the names of the calls). *)
  Definition spec_op (o : @op K V) (a : spec) : spec :=
    match o with
    | OInsert k v => a_insert k v a
    | OCommit n _ => a_commit n a
    | ORevert n => a_revert n a
    | OFlush => a
    end.
  (** A process death during a call leaves the state before or after the call, as survived by reopening. *)
  Definition spec_event (ev : @event K V) (a a' : spec) : Prop :=
    match ev with
    | EvOp o => a' = spec_op o a
    | EvCrash None _ _ _ => a_survives a a'
    | EvCrash (Some o) _ _ _ => a_survives a a' \/ a_survives (spec_op o a) a'
    end.
  Fixpoint spec_run (evs : list event) (a a' : spec) : Prop :=
    match evs with
    | [] => a' = a
    | ev :: evs' => exists a1, spec_event ev a a1 /\ spec_run evs' a1 a'
    end.
End Spec.

(** ** Histories *)
(** Calls a user can make: versions are uint32_t; flush() is only called from commit() and DataBase::commit
    (src/DataBase.cpp:388-412, 1021-1032). *)
Definition ucall {K V} (o : @op K V) : Prop :=
  match o with OFlush => False | OCommit n _ => n <= 4294967295 | _ => True end.
Definition uevent {K V} (ev : @event K V) : Prop :=
  match ev with EvOp o => ucall o | EvCrash (Some o) _ _ _ => ucall o | EvCrash None _ _ _ => True end.

Definition key_eqb {K} (kcmp : K -> K -> comparison) (a b : K) : bool := match kcmp a b with Eq => true | _ => false end.

Definition run_from {K V} kcmp lf s (evs : list (@event K V)) := sys_run kcmp lf s evs.
Definition run {K V} kcmp lf (evs : list (@event K V)) :=
  match init_sys kcmp lf with Some s => sys_run kcmp lf s evs | None => None end.
Definition after {K V} kcmp lf (ops : list (@op K V)) := run kcmp lf (map EvOp ops).
Definition spec_after {K V} (ops : list (@op K V)) : @spec K V := fold_left (fun a o => spec_op o a) ops (@a_init K V).
Definition forget_flush {K V} (o : @op K V) : op := match o with OCommit n _ => OCommit n false | _ => o end.

(** Process death after [m] single system calls of call [o], block merges split into rename and unlinks; then reopen. *)
Definition fine_crash {K V} kcmp lf (s : @sys K V) (o : op) (m : nat) : option sys :=
  reopen kcmp lf (crash_disk (apply_effs (s_world s) (firstn m (flat_map expand (op_effs kcmp lf (Some o) (s_tab s))))) 0) [].

