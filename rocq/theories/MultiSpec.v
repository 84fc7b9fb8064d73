(** What a multi-value table means to its user: a list of writes, oldest first, where a key may be written any number of
    times (up to [imax]); nothing is overwritten. Commit, revert and what survives a restart are as in DbSpec.v. *)
Require Import List Sorted NArith Bool.
Require Import Verif.OrdLib Verif.DbModel Verif.DbSpec Verif.MultiModel.
Import ListNotations.
Open Scope N_scope.

Section Spec.
  Context {K V : Type} (kc : K -> K -> comparison) (imax : N).
  Notation spec := (@spec K V).

  (** the values of [k], in the order they were inserted *)
  Definition vals (k : K) (a : spec) : list V := map (@wval K V) (filter (fun w => keqb kc (wkey w) k) (a_writes a)).

  (** as many of the values as there is room for *)
  Definition room (k : K) (a : spec) : nat := N.to_nat imax - length (vals k a).
  Definition add_all (k : K) (vs : list V) (a : spec) : spec := fold_left (fun a v => a_insert k v a) vs a.

  (** [mc] are only the names of the calls *)
  Definition mspec_step (c : @mcall K V) (a : spec) (b : bool) (a' : spec) : Prop :=
    match c with
    | MInsert k vs => a' = add_all k (firstn (room k a) vs) a /\ (b = true <-> (length vs <= room k a)%nat)
    | MCommit n _ => a' = a_commit n a /\ b = true
    | MRevert n => a' = a_revert n a /\ b = true
    | MRestart _ _ => a_survives a a' /\ b = true
    end.
  Fixpoint mspec_run (cs : list (@mcall K V)) (a : spec) (bs : list bool) (a' : spec) : Prop :=
    match cs, bs with
    | [], [] => a' = a
    | c :: cs', b :: bs' => exists a1, mspec_step c a b a1 /\ mspec_run cs' a1 bs' a'
    | _, _ => False
    end.

  (** [l]: all pairs of key and value, by ascending key, the values of one key in the order they were inserted *)
  Definition by_key (a : spec) (l : list (K * V)) : Prop :=
    StronglySorted (fun x y => kc (fst x) (fst y) <> Gt) l /\
    forall k, map snd (filter (fun x => keqb kc (fst x) k) l) = vals k a.
End Spec.

Definition mcall_ok {K V : Type} (kok : K -> Prop) (c : @mcall K V) : Prop :=
  match c with MInsert k _ => kok k | MCommit n _ => n <= 4294967295 | _ => True end.
