(** What the theorems about transactions talk about *)
Require Import List NArith Bool.
From Verif Require Import BytesLib EngineModel EngineSpec ExecModel TxModel.
Import ListNotations.
Open Scope N_scope.

(** sums of inputs: in one currency, and from one address *)
Definition in_sum (cur : addr) (l : list txin) : N :=
  fold_right (fun i n => (if addr_eqb (ti_currency i) cur then ti_amount i else 0) + n) 0 l.
Definition in_from (a cur : addr) (l : list txin) : N :=
  fold_right (fun i n => (if addr_eqb (ti_address i) a && addr_eqb (ti_currency i) cur then ti_amount i else 0) + n) 0 l.
Definition out_to (a cur : addr) (l : list txout) : N :=
  fold_right (fun o n => (if addr_eqb (to_address o) a && addr_eqb (to_currency o) cur then to_amount o else 0) + n) 0 l.
(** everything a transaction takes and gives (src/Transaction.cpp:204-220) *)
Definition all_inputs (t : tx) (r : result) : list txin := t_inputs t ++ rs_inputs r.
Definition all_outputs (t : tx) (r : result) : list txout := t_outputs t ++ rs_outputs r.
(** the balance or zero *)
Definition bal0 (b : balances) (a cur : addr) : N := match b a cur with Some v => v | None => 0 end.
(** a contract that can act in a transaction: it is locked for the transaction, and there is an executable contract at this address or one
    is deployed by the transaction *)
Definition executable (n : node) (t : tx) (a : addr) : bool :=
  match (if addr_eqb a (t_id t) && match t_deploy t with Some _ => true | None => false end then option_map dp_contract (t_deploy t) else n_contract n a) with
  | Some k => match k_exec k with Some _ => true | None => false end
  | None => false
  end.
Definition active (n : node) (t : tx) (a : addr) : bool := n_locked n t a && executable n t a.
