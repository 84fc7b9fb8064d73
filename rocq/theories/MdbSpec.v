(** What a database of several tables means to its user: one version, and the list of surviving writes to all tables, oldest first. *)
Require Import List NArith Bool.
Require Import Verif.DbModel Verif.DbSpec Verif.MdbModel.
Import ListNotations.
Open Scope N_scope.

Section Spec.
  Context {K V : Type}.
  (** table number, and key, version and value *)
  Record dspec := mk_dspec { d_cur : N; d_writes : list (nat * @write K V) }.
  Definition d_init : dspec := mk_dspec 0 [].

  Definition before (n : N) (ws : list (nat * @write K V)) := filter (fun w => wver (snd w) <? n) ws.
  (** the writes to one table *)
  Definition writes_to (i : nat) (ws : list (nat * @write K V)) : list (@write K V) :=
    map snd (filter (fun w => Nat.eqb (fst w) i) ws).

  (** [DInsert], [DCommit], [DRevert] are the names of the calls *)
  Definition spec_dop (o : @dop K V) (d : dspec) : dspec :=
    match o with
    | DInsert i k v => mk_dspec (d_cur d) (d_writes d ++ [(i, ((k, d_cur d), v))])
    | DCommit n _ => if (n =? 4294967295) || (n <=? d_cur d) then d else mk_dspec n (d_writes d)
    | DRevert n => if d_cur d <? n then d else mk_dspec n (before n (d_writes d))
    end.

  (** After a process death all tables are back at one version, not newer than the current one (or the one that was being committed),
      and hold exactly the writes made before that version: no table is ahead of or behind the others. *)
  Definition snapshot (o : option (@dop K V)) (d d' : dspec) : Prop :=
    d_cur d' <= N.max (d_cur d) (match o with Some o => d_cur (spec_dop o d) | None => 0 end) /\
    d_writes d' = before (d_cur d') (d_writes d).
  Definition spec_devent (ev : @devent K V) (d d' : dspec) : Prop :=
    match ev with
    | ECall o => d' = spec_dop o d
    | EDie o _ _ => snapshot o d d'
    end.
  Fixpoint spec_drun (evs : list devent) (d d' : dspec) : Prop :=
    match evs with
    | [] => d' = d
    | ev :: evs' => exists d1, spec_devent ev d d1 /\ spec_drun evs' d1 d'
    end.
End Spec.

(** versions are 32 bit *)
Definition udop {K V} (o : @dop K V) : Prop := match o with DCommit n _ => n <= 4294967295 | _ => True end.
Definition udevent {K V} (ev : @devent K V) : Prop :=
  match ev with ECall o => udop o | EDie (Some o) _ _ => udop o | EDie None _ _ => True end.
