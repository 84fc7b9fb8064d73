(** What accounts are to a user *)
Require Import List Arith NArith Bool.
From Verif Require Import PrsModel AccModel.
Import ListNotations.
Open Scope N_scope.

(** The same account: same key file, derivation and name, addresses and use of a passphrase; the fingerprint may be filled in *)
Definition same_account (a b : cfg) : Prop := c_key a = c_key b /\ c_rest a = c_rest b /\ c_num a = c_num b /\ c_pass a = c_pass b /\ (c_fp b = c_fp a \/ c_fp b = 0).
(** Same accounts under the same numbers *)
Definition same_list (max_keys : nat) (s t : st) : Prop := forall i, (max_keys <= i)%nat ->
  match slot i s, slot i t with Some (a, x), Some (b, y) => c_key a = c_key b /\ c_rest a = c_rest b /\ c_num a = c_num b /\ c_pass a = c_pass b /\ x = y | None, None => True | _, _ => False end.
(** Keys are kept: every key file is still there, with its seed *)
Definition keeps_keys (s t : st) : Prop := forall f seed fp, get f (files s) = Some (seed, fp) -> exists fp', get f (files t) = Some (seed, fp').
(** Histories in which nothing special happens: creating an account does not fail, accounts are not created hidden, addresses are counted for accounts that are listed, and no restart follows the removal of the last account *)
Section TAME.
  Variables (fpr : N -> option N -> N) (path_of : N -> N) (max_keys : nat) (max_addrs num_addrs : N) (keys : list N).
  Definition plain (s : st) (o : op) : Prop :=
    match o with
    | Create c p => c_hidden c = false /\ snd (create_account fpr max_keys max_addrs c p s) = true
    | Import c _ _ | New c _ _ => c_hidden c = false
    | SetCount i _ => get_account i s <> None
    | Restart => forall l c, accts s = l ++ [c] -> c_hidden c = false
    | Remove _ => True
    end.
  Fixpoint tame (s : st) (l : list op) : Prop :=
    match l with [] => True | o :: r => plain s o /\ tame (fst (step fpr path_of max_keys max_addrs num_addrs keys s o)) r end.
End TAME.
