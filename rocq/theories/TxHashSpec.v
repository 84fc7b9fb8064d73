(** The values the C++ types can hold, and what it means that two signed transactions are told apart. *)
Require Import List Arith NArith ZArith Lia Bool String.
From Verif Require Import BytesLib TxHashModel.
Import ListNotations.
Open Scope N_scope.

Definition len_ok {A} (l : list A) : Prop := N.of_nat (List.length l) < 2 ^ 64.
Definition u64 (x : N) : Prop := x < 2 ^ 64.
Definition i64 (x : Z) : Prop := (- 2 ^ 63 <= x < 2 ^ 63)%Z.
Definition opt_ok {A} (P : A -> Prop) (o : option A) : Prop := match o with Some a => P a | None => True end.
Definition list_ok {A} (P : A -> Prop) (l : list A) : Prop := len_ok l /\ Forall P l.
Definition pair_ok {A B} (P : A -> Prop) (Q : B -> Prop) (p : A * B) : Prop := P (fst p) /\ Q (snd p).

(** integers fit in 64 bits, and sizes in [size_t] *)
Inductive json_ok : json -> Prop :=
| ok_null : json_ok JNull
| ok_bool b : json_ok (JBool b)
| ok_ulong x : u64 x -> json_ok (JULong x)
| ok_long x : i64 x -> json_ok (JLong x)
| ok_string s : len_ok s -> json_ok (JString s)
| ok_array l : len_ok l -> Forall json_ok l -> json_ok (JArray l)
| ok_object l : len_ok l -> Forall (fun f => len_ok (fst f) /\ json_ok (snd f)) l -> json_ok (JObject l)
| ok_other d : len_ok d -> json_ok (JOther d).

Definition exec_ok (e : exec) : Prop :=
  u64 (x_version e) /\ len_ok (x_address e) /\ len_ok (x_method e) /\ list_ok json_ok (x_args e) /\ opt_ok len_ok (x_user e).
Definition op_ok (o : op) : Prop :=
  match o with OExecute e => exec_ok e | ODeposit e c a => exec_ok e /\ len_ok c /\ a < 2 ^ 128 end.

Definition method_ok (m : method) : Prop :=
  len_ok (m_name m) /\ len_ok (m_info m) /\ u64 (m_entry m) /\ list_ok len_ok (m_args m).
Definition flags_ok (f : flags) : Prop := i64 (f_verbose f) /\ i64 (f_opt f).
Definition token_ok (t : token) : Prop :=
  u64 (t_version t) /\ len_ok (t_name t) /\ len_ok (t_symbol t) /\ i64 (t_decimals t) /\ json_ok (t_meta t).
Definition contract_ok (c : contract) : Prop :=
  match c with
  | CBinary b =>
    u64 (b_version b) /\ len_ok (b_name b) /\ list_ok (pair_ok len_ok u64) (b_fields b)
    /\ list_ok (pair_ok len_ok method_ok) (b_methods b) /\ len_ok (b_constant b) /\ len_ok (b_binary b)
    /\ list_ok (pair_ok u64 u64) (b_lines b) /\ len_ok (b_source b) /\ len_ok (b_compiler b) /\ flags_ok (b_flags b)
  | CData v j => u64 v /\ json_ok j
  | CExecutable t bin init args deps =>
    token_ok t /\ len_ok bin /\ len_ok init /\ list_ok json_ok args /\ list_ok (pair_ok len_ok len_ok) deps
  | CMultiSig v n o => u64 v /\ u64 n /\ list_ok len_ok o
  | CPubKey v a => u64 v /\ len_ok a
  | CToken t => token_ok t
  | CWebData v m p => u64 v /\ len_ok m /\ len_ok p
  end.

Definition txio_ok (t : txio) : Prop :=
  len_ok (io_address t) /\ len_ok (io_contract t) /\ io_amount t < 2 ^ 128 /\ opt_ok len_ok (io_memo t).
Definition tx_ok (t : tx) : Prop :=
  (u64 (tx_version t) /\ u64 (tx_expires t) /\ u64 (tx_fee_ratio t) /\ u64 (tx_max_fee t) /\ u64 (tx_note t) /\ u64 (tx_nonce t))
  /\ len_ok (tx_network t) /\ opt_ok len_ok (tx_sender t) /\ list_ok txio_ok (tx_inputs t) /\ list_ok txio_ok (tx_outputs t)
  /\ list_ok op_ok (tx_execute t) /\ opt_ok contract_ok (tx_deploy t).

(** the code generator gave different ids to the types involved *)
Definition type_names : list string :=
  ["Execute"; "Deposit"; "method_t"; "Binary"; "Data"; "Executable"; "MultiSig"; "PubKey"; "TokenBase"; "WebData"; "Transaction"]%string.
Definition types_distinct (th : string -> N) : Prop :=
  (forall s, u64 (th s)) /\ forall a b, In a type_names -> In b type_names -> th a = th b -> a = b.

(** every string that is hashed when the id of a transaction is computed *)
Definition hashed_for (th : string -> N) (sha : bytes -> bytes) (t : tx) : list bytes :=
  tx_bytes th sha t :: map (op_bytes th (tx_version t)) (tx_execute t)
  ++ match tx_deploy t with Some c => [contract_bytes th (tx_version t) c] | None => [] end.
(** a real break of the hash function: two different strings that were hashed for the two transactions and have the same
    hash, or a deployed contract whose hash is the all zero string used for "no contract" *)
Definition hash_broken (th : string -> N) (sha : bytes -> bytes) (t u : tx) : Prop :=
  (exists x y, In x (hashed_for th sha t) /\ In y (hashed_for th sha u) /\ x <> y /\ sha x = sha y) \/
  (exists x, In x (hashed_for th sha t ++ hashed_for th sha u) /\ sha x = repeat 0 32).
