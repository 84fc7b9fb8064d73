(** Which tokens a user has added *)
Require Import List NArith.
From Verif Require Import WtlModel.
Import ListNotations.
Open Scope N_scope.
Definition adds (a : N) (o : op) : Prop := o = Add a \/ o = Add_stop a.
Definition removes (a : N) (o : op) : Prop := o = Rem a \/ o = Rem_stop a.
(** [a] was added and not removed since *)
Definition added (l : list op) (a : N) : Prop := exists l1 o l2, l = l1 ++ o :: l2 /\ adds a o /\ forall x, In x l2 -> ~ removes a x.
