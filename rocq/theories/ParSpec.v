(** One transaction after the other *)
Require Import List Arith NArith ZArith Bool.
From Verif Require Import BytesLib OrdLib VarModel InstrModel EngineModel ExecModel StorModel TxModel BlockModel ParModel.
Import ListNotations.
Open Scope N_scope.

(** the writes of a commit up to the first that is refused *)
Fixpoint apply_ops (l : list sop) (s : storage) : storage * bool :=
  match l with
  | [] => (s, true)
  | o :: l => match s_do o s with Some s => apply_ops l s | None => (s, false) end
  end.
(** how each transaction ends, whether its commit was complete, and the contents of the storage at the end *)
Fixpoint sequential (n : node) (bal : balances) (l : list tx) (s : storage) : list (outcome * bool) * storage :=
  match l with
  | [] => ([], s)
  | t :: l =>
    let o := validate n (backend_of s) t bal in
    let '(s, ok) := apply_ops (writes o) s in
    let '(rest, s) := sequential n bal l s in ((o, ok) :: rest, s)
  end.
(** no contract can see a difference *)
Definition same_contents (s s' : storage) : Prop :=
  (forall c a, s_read s c a = s_read s' c a) /\ (forall c a k, s_entry s c a k = s_entry s' c a k) /\
  (forall c v, s_lookup s c v = s_lookup s' c v) /\ (forall c cur, fst (s_get_balance s c cur) = fst (s_get_balance s' c cur)).
(** the table of dependencies has those of every executable contract: src/Node.cpp:1203-1211 *)
Definition depends_ok (G : deps) (n : node) : Prop :=
  forall a k ex, n_contract n a = Some k -> k_exec k = Some ex -> forall e, In e (snd ex) -> In (snd e) (g_dep G a).
(** no two of them have the same id: src/Node_validate.cpp:252-254, src/Node_update.cpp:686, the keys of tx_pool *)
Definition distinct (txs : list tx) : Prop := NoDup (map t_id txs).
(** a contract is known by the id of the transaction that deployed it: src/Node.cpp:1180-1216 *)
Definition contracts_ok (n : node) : Prop := forall a, n_contract n a <> None -> n_exists n a = true.
