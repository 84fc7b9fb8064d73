(** What balances are. *)
Require Import List NArith ZArith Bool.
From Verif Require Import WalletModel WalletSpec BalModel.
Import ListNotations.
Open Scope N_scope.

(** The chain up to now, as the balances that its blocks changed, in that order: [((address, currency), new balance)].  What an address holds is the last one. *)
Definition held (changes : list (key * N)) (a c : N) : N := fold_left (fun v w => if key_eqb (fst w) (a, c) then snd w else v) changes 0.
Definition table_of (changes : list (key * N)) : table := fold_left table_insert changes [].
(** what some addresses hold together, each counted once *)
Definition held_by (changes : list (key * N)) (addresses : list N) (c : N) : N := sum (map (fun a => held changes a c) (nodup N.eq_dec addresses)).
(** the currencies that an address has ever had *)
Definition ever (changes : list (key * N)) (a : N) : list N := nodup N.eq_dec (map (fun w => snd (fst w)) (filter (fun w => fst (fst w) =? a) changes)).
(** the limit of a query is no obstacle: it is negative, or there are no more currencies *)
Definition limit_enough (changes : list (key * N)) (addresses : list N) (limit : Z) : Prop :=
  (- 2 ^ 31 <= limit < 2 ^ 31)%Z /\ N.of_nat (length changes) < 2 ^ 63 /\
  ((limit < 0)%Z \/ forall a, In a addresses -> (Z.of_nat (length (ever changes a)) <= limit)%Z).
(** no currency has the address that is all ones *)
Definition no_ones (changes : list (key * N)) : Prop := Forall (fun w => snd (fst w) < ones) changes.
Definition wanted (whitelist : list N) (c : N) : bool := match whitelist with [] => true | _ => existsb (N.eqb c) whitelist end.
(** the entry of a map that has no entries for zero *)
Definition entry_for (v : N) : option N := if v =? 0 then None else Some v.
