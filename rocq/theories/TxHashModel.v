(** The byte strings hashed to get the id of a transaction, an operation or a contract.
    Models /repo/include/mmx/write_bytes.h, /repo/src/Transaction.cpp (hash_serialize), /repo/src/operation and
    /repo/src/contract (calc_hash). *)
Require Import List Arith NArith ZArith Lia Bool String Ascii.
From Verif Require Import BytesLib.
Import ListNotations.
Open Scope N_scope.

(** include/mmx/write_bytes.h:105-107 [write_bytes_cstr] *)
Definition cstr (s : string) : bytes := map N_of_ascii (list_ascii_of_string s).
(** lines 61-64, 87-102: all unsigned integers are written as 8 bytes *)
Definition w_u64 (x : N) : bytes := le_bytes 8 x.
(** lines 66-85: all signed integers are written as 8 bytes, two's complement *)
Definition w_i64 (x : Z) : bytes := le_bytes 8 (Z.to_N (x mod 2 ^ 64)).
(** lines 100-103 *)
Definition w_u128 (x : N) : bytes := w_u64 (x mod 2 ^ 64) ++ w_u64 (x / 2 ^ 64).
(** lines 61-64 *)
Definition w_bool (b : bool) : bytes := [if b then 1 else 0].
(** lines 109-114 *)
Definition w_string (s : bytes) : bytes := cstr "string<>" ++ w_u64 (N.of_nat (List.length s)) ++ s.
(** lines 116-137, [bytes_t], byte vectors and buffers *)
Definition w_bytes (s : bytes) : bytes := cstr "bytes<>" ++ w_u64 (N.of_nat (List.length s)) ++ s.
(** lines 231-240 *)
Definition w_optional {A} (w : A -> bytes) (o : option A) : bytes :=
  cstr "optional<>" ++ match o with Some a => w_bool true ++ w a | None => w_bool false end.
(** lines 242-247 *)
Definition w_pair {A B} (w : A -> bytes) (v : B -> bytes) (p : A * B) : bytes := cstr "pair<>" ++ w (fst p) ++ v (snd p).
(** lines 249-293: arrays, vectors, sets and maps; sets and maps are given as the list of their elements in order *)
Definition w_vector {A} (w : A -> bytes) (l : list A) : bytes :=
  cstr "vector<>" ++ w_u64 (N.of_nat (List.length l)) ++ flat_map w l.
(** lines 295-305 *)
Definition w_field {A} (name : string) (w : A -> bytes) (a : A) : bytes :=
  cstr "field<>" ++ w_string (cstr name) ++ w a.

(** A [vnx::Variant].  [JOther] stands for all the types outside the JSON model, with their opaque data.  An integer is
    unsigned or signed; its width does not reach the output. *)
Inductive json :=
| JNull | JBool (b : bool) | JULong (x : N) | JLong (x : Z) | JString (s : bytes)
| JArray (l : list json) | JObject (fields : list (bytes * json)) | JOther (data : bytes).

(** src/utils.cpp:18-101 [is_json]; the recursion limit of 100 is not modelled *)
Fixpoint is_json (v : json) : bool :=
  match v with
  | JArray l => forallb is_json l
  | JObject l => forallb (fun f => is_json (snd f)) l
  | JOther _ => false
  | _ => true
  end.

(** include/mmx/write_bytes.h:139-178 *)
Fixpoint w_variant (ver : N) (v : json) : bytes :=
  (if (1 <=? ver) && negb (is_json v) then cstr "variant<>" else []) ++
  match v with
  | JNull => cstr "NULL"
  | JBool b => (if 1 <=? ver then cstr "<bool>" else []) ++ w_bool b
  | JULong x => (if 1 <=? ver then cstr "<u64>" else []) ++ w_u64 x
  | JLong x => (if 1 <=? ver then cstr "<i64>" else []) ++ w_i64 x
  | JString s => w_string s
  | JArray l => cstr "vector<>" ++ w_u64 (N.of_nat (List.length l)) ++ flat_map (w_variant ver) l
  | JObject l => cstr "object<>" ++ cstr "vector<>" ++ w_u64 (N.of_nat (List.length l))
                 ++ flat_map (fun f => cstr "pair<>" ++ w_string (fst f) ++ w_variant ver (snd f)) l
  | JOther d => w_bytes d
  end.

(** interface/operation/Execute.vni, interface/operation/Deposit.vni.  The field [solution] is not part of the id. *)
Record exec := { x_version : N; x_address : bytes; x_method : bytes; x_args : list json; x_user : option bytes }.
Inductive op := OExecute (e : exec) | ODeposit (e : exec) (currency : bytes) (amount : N).

(** interface/contract/method_t.vni, interface/compile_flags_t.vni *)
Record method := { m_name : bytes; m_info : bytes; m_init : bool; m_const : bool; m_public : bool; m_payable : bool;
                   m_entry : N; m_args : list bytes }.
Record flags := { f_verbose : Z; f_opt : Z; f_catch : bool }.
(** interface/contract/TokenBase.vni *)
Record token := { t_version : N; t_name : bytes; t_symbol : bytes; t_decimals : Z; t_meta : json }.
(** interface/contract/Binary.vni *)
Record binary := { b_version : N; b_name : bytes; b_fields : list (bytes * N); b_methods : list (bytes * method);
                   b_constant : bytes; b_binary : bytes; b_lines : list (N * N); b_source : bytes; b_compiler : bytes;
                   b_flags : flags }.
(** interface/contract, all types *)
Inductive contract :=
| CBinary (b : binary)
| CData (version : N) (value : json)
| CExecutable (t : token) (bin : bytes) (init : bytes) (args : list json) (depends : list (bytes * bytes))
| CMultiSig (version num_required : N) (owners : list bytes)
| CPubKey (version : N) (address : bytes)
| CToken (t : token)
| CWebData (version : N) (mime payload : bytes).

(** interface/txio_t.vni; the fields [solution] and [flags] of inputs are not part of the id *)
Record txio := { io_address : bytes; io_contract : bytes; io_amount : N; io_memo : option bytes }.
(** interface/Transaction.vni, the signed part.  [Transaction::is_valid] (src/Transaction.cpp:63-67) excludes null
    operations. *)
Record tx := { tx_version : N; tx_expires : N; tx_fee_ratio : N; tx_max_fee : N; tx_note : N; tx_nonce : N;
               tx_network : bytes; tx_sender : option bytes; tx_inputs : list txio; tx_outputs : list txio;
               tx_execute : list op; tx_deploy : option contract }.

Section HASH.
  (** type ids given by the code generator (not part of the repository) and the hash function *)
  Variable th : string -> N.
  Variable sha : bytes -> bytes.

  (** src/operation/Execute.cpp:31-49, src/operation/Deposit.cpp:19-40, with [full_hash = false] *)
  Definition exec_fields (ver : N) (e : exec) : bytes :=
    w_field "version" w_u64 (x_version e) ++ w_field "address" w_bytes (x_address e)
    ++ w_field "method" w_string (x_method e) ++ w_field "args" (w_vector (w_variant ver)) (x_args e)
    ++ w_field "user" (w_optional w_bytes) (x_user e).
  Definition op_bytes (ver : N) (o : op) : bytes :=
    match o with
    | OExecute e => w_u64 (th "Execute") ++ exec_fields ver e
    | ODeposit e c a => w_u64 (th "Deposit") ++ exec_fields ver e ++ w_field "currency" w_bytes c ++ w_field "amount" w_u128 a
    end.

  (** include/mmx/write_bytes.h:208-229 *)
  Definition w_flags (f : flags) : bytes :=
    cstr "compile_flags_t<>" ++ w_field "verbose" w_i64 (f_verbose f) ++ w_field "opt_level" w_i64 (f_opt f)
    ++ w_field "catch_overflow" w_bool (f_catch f).
  Definition w_method (m : method) : bytes :=
    w_u64 (th "method_t") ++ w_field "name" w_string (m_name m) ++ w_field "info" w_string (m_info m)
    ++ w_field "is_init" w_bool (m_init m) ++ w_field "is_const" w_bool (m_const m)
    ++ w_field "is_public" w_bool (m_public m) ++ w_field "is_payable" w_bool (m_payable m)
    ++ w_field "entry_point" w_u64 (m_entry m) ++ w_field "args" (w_vector w_string) (m_args m).

  (** src/contract/TokenBase.cpp:28-43 *)
  Definition token_fields (ver : N) (t : token) : bytes :=
    w_field "version" w_u64 (t_version t) ++ w_field "name" w_string (t_name t) ++ w_field "symbol" w_string (t_symbol t)
    ++ w_field "decimals" w_i64 (t_decimals t) ++ w_field "meta_data" (w_variant ver) (t_meta t).
  (** [calc_hash] of src/contract/Binary.cpp:32-53, Data.cpp:21-33, Executable.cpp:43-62, MultiSig.cpp:24-37,
      PubKey.cpp:22-34, TokenBase.cpp:28-43, WebData.cpp:21-34 *)
  Definition contract_bytes (ver : N) (c : contract) : bytes :=
    match c with
    | CBinary b =>
      w_u64 (th "Binary") ++ w_field "version" w_u64 (b_version b) ++ w_field "name" w_string (b_name b)
      ++ w_field "fields" (w_vector (w_pair w_string w_u64)) (b_fields b)
      ++ w_field "methods" (w_vector (w_pair w_string w_method)) (b_methods b)
      ++ w_field "constant" w_bytes (b_constant b) ++ w_field "binary" w_bytes (b_binary b)
      ++ w_field "line_info" (w_vector (w_pair w_u64 w_u64)) (b_lines b) ++ w_field "source" w_string (b_source b)
      ++ w_field "compiler" w_string (b_compiler b) ++ w_field "build_flags" w_flags (b_flags b)
    | CData v j => w_u64 (th "Data") ++ w_field "version" w_u64 v ++ w_field "value" (w_variant ver) j
    | CExecutable t bin init args deps =>
      w_u64 (th "Executable") ++ token_fields ver t ++ w_field "binary" w_bytes bin ++ w_field "init_method" w_string init
      ++ w_field "init_args" (w_vector (w_variant ver)) args
      ++ w_field "depends" (w_vector (w_pair w_string w_bytes)) deps
    | CMultiSig v n o =>
      w_u64 (th "MultiSig") ++ w_field "version" w_u64 v ++ w_field "num_required" w_u64 n
      ++ w_field "owners" (w_vector w_bytes) o
    | CPubKey v a => w_u64 (th "PubKey") ++ w_field "version" w_u64 v ++ w_field "address" w_bytes a
    | CToken t => w_u64 (th "TokenBase") ++ token_fields ver t
    | CWebData v m p =>
      w_u64 (th "WebData") ++ w_field "version" w_u64 v ++ w_field "mime_type" w_string m ++ w_field "payload" w_bytes p
    end.

  (** include/mmx/write_bytes.h:180-206 with [full_hash = false] *)
  Definition w_txio (name : string) (t : txio) : bytes :=
    cstr name ++ w_bytes (io_address t) ++ w_bytes (io_contract t) ++ w_u128 (io_amount t)
    ++ w_optional w_string (io_memo t).

  (** src/Transaction.cpp:129-172 [hash_serialize(false)] *)
  Definition tx_bytes (t : tx) : bytes :=
    w_u64 (th "Transaction") ++ w_field "version" w_u64 (tx_version t) ++ w_field "expires" w_u64 (tx_expires t)
    ++ w_field "fee_ratio" w_u64 (tx_fee_ratio t) ++ w_field "max_fee_amount" w_u64 (tx_max_fee t)
    ++ w_field "note" w_u64 (tx_note t) ++ w_field "nonce" w_u64 (tx_nonce t) ++ w_field "network" w_string (tx_network t)
    ++ w_field "sender" (w_optional w_bytes) (tx_sender t)
    ++ w_field "inputs" (w_vector (w_txio "txin_t<>")) (tx_inputs t)
    ++ w_field "outputs" (w_vector (w_txio "txout_t<>")) (tx_outputs t)
    ++ cstr "field<>" ++ w_string (cstr "execute") ++ w_u64 (N.of_nat (List.length (tx_execute t)))
    ++ flat_map (fun o => w_bytes (sha (op_bytes (tx_version t) o))) (tx_execute t)
    ++ w_field "deploy" w_bytes (match tx_deploy t with Some c => sha (contract_bytes (tx_version t) c) | None => repeat 0 32 end).

  (** src/Transaction.cpp:174-177; [finalize] stores it as the id, which is what gets signed *)
  Definition tx_id (t : tx) : bytes := sha (tx_bytes t).
End HASH.
