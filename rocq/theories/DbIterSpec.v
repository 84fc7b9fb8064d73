(** What iterating over a table means to its user: the live keys in order. Independent of blocks and cursors. *)
Require Import List Sorted NArith Bool.
Require Import Verif.OrdLib.
Import ListNotations.

Section Spec.
  Context {K V : Type} (kcmp : K -> K -> comparison).

  (** [l] lists exactly the keys [find] finds, each once, in ascending order, each with the value [find] finds *)
  Definition lists (find : K -> option V) (l : list (K * V)) : Prop :=
    StronglySorted (fun x y => kcmp x y = Lt) (map fst l) /\ forall k v, In (k, v) l <-> find k = Some v.

  Definition below (k : K) (x : K * V) : bool := match kcmp (fst x) k with Lt => true | _ => false end.

  (** Reading the current element and stepping until there is no current element gives [l]; no step fails. *)
  Inductive yields {I : Type} (cur : I -> option (K * V)) (step : I -> option I) : I -> list (K * V) -> Prop :=
  | y_end i : cur i = None -> yields cur step i []
  | y_step i x i' l : cur i = Some x -> step i = Some i' -> yields cur step i' l -> yields cur step i (x :: l).

  (** [o] is the next live key above (below) [k], with its value, if there is one *)
  Definition next_above (find : K -> option V) (k : K) (o : option (K * V)) : Prop :=
    match o with
    | Some (k', v') => kcmp k k' = Lt /\ find k' = Some v' /\ forall x, find x <> None -> kcmp k x = Lt -> x = k' \/ kcmp k' x = Lt
    | None => forall x, find x <> None -> kcmp k x <> Lt
    end.
  Definition next_below (find : K -> option V) (k : K) (o : option (K * V)) : Prop :=
    match o with
    | Some (k', v') => kcmp k' k = Lt /\ find k' = Some v' /\ forall x, find x <> None -> kcmp x k = Lt -> x = k' \/ kcmp x k' = Lt
    | None => forall x, find x <> None -> kcmp x k <> Lt
    end.
End Spec.
