(** Locking, signing and sending: /repo/include/mmx/ECDSA_Wallet.h:58-127, 334-545, /repo/src/Wallet.cpp:105-314, 544-601, 881-914, and the checks of signatures
    by the node, /repo/src/Node_validate.cpp:645-656, 679-696, 410-412 and /repo/src/Transaction.cpp:79-108, 285-294.

    Passphrases, keys, hashes and signatures are byte strings; the hash functions, the derivation of keys, signing and verifying are functions one knows nothing about
    (section variables).  The choice of inputs and of the sender (ECDSA_Wallet.h:242-332, 464-520) is another such function here; it is modelled in WalletModel (C43). *)
Require Import List Arith NArith Bool.
From Verif Require Import BytesLib EngineModel SigModel.
Import ListNotations.
Open Scope N_scope.

(** an exception, or a result *)
Inductive res (A : Type) := Throw | Ret (a : A).
Arguments Throw {A}. Arguments Ret {A} a.
Definition rbind {A B} (x : res A) (f : A -> res B) : res B := match x with Throw => Throw | Ret a => f a end.

(** interface/txin_t.vni, txio_t.vni *)
Record input := mk_input { in_address : addr; in_contract : addr; in_amount : N; in_memo : option bytes; in_solution : N; in_flags : N }.
Record output := mk_output { out_address : addr; out_contract : addr; out_amount : N; out_memo : option bytes }.
(** operation::Execute and operation::Deposit, the only operations there are; [op_call]: method and arguments; [op_deposit]: currency and amount of a deposit *)
Record op := mk_op { op_address : addr; op_call : bytes; op_deposit : option (addr * N); op_user : option addr; op_solution : N }.
(** interface/Transaction.vni; exec_result is left out *)
Record txn := mk_txn {
  t_version : N; t_expires : N; t_fee_ratio : N; t_static_cost : N; t_max_fee : N; t_note : N; t_nonce : N; t_network : bytes;
  t_sender : option addr; t_inputs : list input; t_outputs : list output; t_execute : list op; t_solutions : list solution; t_deploy : option bytes;
  t_id : bytes; t_content_hash : bytes }.
Definition NO_SOLUTION : N := 65535.
Definition IS_EXEC : N := 1.
(** interface/spend_options_t.vni; [o_expires]: 455-461 in ECDSA_Wallet.h, the lower bound that comes from expire_at, expire_delta or default_expire *)
Record options := mk_options {
  o_auto_send : bool; o_mark_spent : bool; o_fee_ratio : N; o_gas_limit : N; o_expires : N; o_nonce : option N; o_user : option addr; o_sender : option addr;
  o_passphrase : option bytes; o_note : option N; o_memo : option bytes; o_owner_map : list (addr * addr) }.
(** interface/account_t.vni *)
Record config := mk_config { c_with_passphrase : bool; c_finger_print : bytes; c_num_addresses : nat }.
(** The members of ECDSA_Wallet.h:577-581 that matter for signing; the newest entry of [w_map] counts *)
Record wallet := mk_wallet { w_addresses : list addr; w_keypairs : list (bytes * bytes); w_map : list (addr * nat) }.

Definition lookup {V} (m : list (addr * V)) (a : addr) : option V := option_map snd (List.find (fun e => addr_eqb (fst e) a) m).
(** Transaction.cpp:196-202 *)
Definition get_solution (t : txn) (i : N) : option solution := nth_error (t_solutions t) (N.to_nat i).

(** what calc_hash(false) covers, Transaction.cpp:134-157: inputs and operations without solutions and flags (txin_t.cpp, Execute.cpp, Deposit.cpp) *)
Definition input_core (i : input) : addr * addr * N * option bytes := (in_address i, in_contract i, in_amount i, in_memo i).
Definition op_core (o : op) : addr * bytes * option (addr * N) * option addr := (op_address o, op_call o, op_deposit o, op_user o).
Record core := mk_core {
  k_version : N; k_expires : N; k_fee_ratio : N; k_max_fee : N; k_note : N; k_nonce : N; k_network : bytes; k_sender : option addr;
  k_inputs : list (addr * addr * N * option bytes); k_outputs : list output; k_execute : list (addr * bytes * option (addr * N) * option addr); k_deploy : option bytes }.
Definition core_of (t : txn) : core :=
  mk_core (t_version t) (t_expires t) (t_fee_ratio t) (t_max_fee t) (t_note t) (t_nonce t) (t_network t) (t_sender t)
          (map input_core (t_inputs t)) (t_outputs t) (map op_core (t_execute t)) (t_deploy t).

(** what the cost without signatures depends on: inputs, outputs, operations, contract (Transaction.cpp:227-262) *)
Definition core_parts : Type := list (addr * addr * N * option bytes) * list output * list (addr * bytes * option (addr * N) * option addr) * option bytes.
Definition parts_of (t : txn) : core_parts := (map input_core (t_inputs t), t_outputs t, map op_core (t_execute t), t_deploy t).

(** A contract as far as solutions go *)
Inductive contract := CPubKey (a : addr) | CMultiSig (m : multisig) | COther.

Section SIGN.
  (** pubkey_t::get_addr, signature_t::sign, signature_t::verify *)
  Variables (get_addr : bytes -> addr) (sign : bytes -> bytes -> bytes) (verify : bytes -> bytes -> bytes -> bool).
  (** ECDSA_Wallet.h:93-103: secret and public key number [i] from the seed, the account and a passphrase; get_finger_print (src/utils.cpp) *)
  Variables (derive : bytes -> nat -> bytes * bytes) (finger_print : bytes -> bytes).
  (** Transaction::calc_hash, without and with signatures; Transaction::calc_cost without the solutions, and the cost of a solution *)
  Variables (calc_hash : core -> bytes) (full_hash : txn -> bytes) (base_cost : core_parts -> N) (sol_cost : solution -> N).
  (** vnx::rand64() until it is not zero; params->network; get_transaction_version(params, height + 1) *)
  Variables (rand : N) (network : bytes) (version : N).
  Variable cfg : config.

  (** ECDSA_Wallet.h:124-127 *)
  Definition is_locked (w : wallet) : bool := (match w_addresses w with [] => true | _ => false end) || (List.length (w_keypairs w) <? List.length (w_addresses w))%nat.
  (** ECDSA_Wallet.h:58-67 *)
  Definition lock (w : wallet) : wallet := mk_wallet (w_addresses w) [] [].
  (** std::vector::resize, and assignment to an element *)
  Definition resize {A} (d : A) (n : nat) (l : list A) : list A := firstn n l ++ repeat d (n - List.length l).
  Fixpoint set_nth {A} (i : nat) (x : A) (l : list A) : list A := match l, i with [], _ => [] | _ :: l, O => x :: l | y :: l, S i => y :: set_nth i x l end.
  (** ECDSA_Wallet.h:93-121: the loop, [n] rounds are left *)
  Fixpoint derive_loop (p : bytes) (first : option addr) (n i : nat) (w : wallet) : res wallet :=
    match n with
    | O => Ret w
    | S n' =>
      let keys := derive p i in
      let a := get_addr (snd keys) in
      let next w :=
        derive_loop p first n' (S i) (mk_wallet (set_nth i a (w_addresses w)) (set_nth i keys (w_keypairs w)) ((a, i) :: w_map w)) in
      match i with
      | O => match first with
             | Some f => if negb (addr_eqb a f) then Throw
                         else next (mk_wallet (resize [] (c_num_addresses cfg) (w_addresses w)) (resize ([], []) (c_num_addresses cfg) (w_keypairs w)) (w_map w))
             | None => next (mk_wallet (resize [] (c_num_addresses cfg) (w_addresses w)) (resize ([], []) (c_num_addresses cfg) (w_keypairs w)) (w_map w))
             end
      | _ => next w
      end
    end.
  (** ECDSA_Wallet.h:73-92 *)
  Definition unlock (w : wallet) (p : bytes) : res wallet :=
    if c_with_passphrase cfg && negb (addr_eqb (finger_print p) (c_finger_print cfg)) then Throw
    else derive_loop p (nth_error (w_addresses w) 0) (c_num_addresses cfg) 0 w.

  (** ECDSA_Wallet.h:182-189 *)
  Definition find_keypair (w : wallet) (a : addr) : option (bytes * bytes) :=
    match lookup (w_map w) a with Some i => Some (nth i (w_keypairs w) ([], [])) | None => None end.
  (** ECDSA_Wallet.h:428-442 *)
  Definition sign_msg (w : wallet) (a : addr) (msg : bytes) : res (option solution) :=
    if is_locked w then Throw
    else match find_keypair w a with Some (sk, pk) => Ret (Some (PubKey pk (sign sk msg))) | None => Ret None end.

  (** ECDSA_Wallet.h:352-366: solution_map, the solutions and the index returned, which has 16 bits *)
  Definition sign_msg_ex (w : wallet) (id : bytes) (owner : addr) (m : list (addr * N)) (sols : list solution) : res (list (addr * N) * list solution * N) :=
    match lookup m owner with
    | Some i => Ret (m, sols, i mod 65536)
    | None =>
      rbind (sign_msg w owner id) (fun s =>
        match s with
        | Some s => let i := N.of_nat (List.length sols) in Ret ((owner, i) :: m, sols ++ [s], i mod 65536)
        | None => Ret (m, sols, 65535)
        end)
    end.
  (** ECDSA_Wallet.h:374-388 *)
  Fixpoint sign_inputs (w : wallet) (id : bytes) (owners : list (addr * addr)) (m : list (addr * N)) (sols : list solution) (ins : list input)
    : res (list (addr * N) * list solution * list input) :=
    match ins with
    | [] => Ret (m, sols, [])
    | i :: ins =>
      if negb (in_solution i =? NO_SOLUTION) then
        rbind (sign_inputs w id owners m sols ins) (fun '(m, sols, ins) => Ret (m, sols, i :: ins))
      else
        let '(flags, owner) := match lookup owners (in_address i) with Some o => (N.lor (in_flags i) IS_EXEC, o) | None => (in_flags i, in_address i) end in
        rbind (sign_msg_ex w id owner m sols) (fun '(m, sols, k) =>
          rbind (sign_inputs w id owners m sols ins) (fun '(m, sols, ins) =>
            Ret (m, sols, mk_input (in_address i) (in_contract i) (in_amount i) (in_memo i) k flags :: ins)))
    end.
  (** ECDSA_Wallet.h:391-413; every operation is an Execute, so that 406-410 is not reached *)
  Fixpoint sign_ops (w : wallet) (id : bytes) (m : list (addr * N)) (sols : list solution) (ops : list op) : res (list solution * list op) :=
    match ops with
    | [] => Ret (sols, [])
    | o :: ops =>
      if negb (op_solution o =? NO_SOLUTION) then rbind (sign_ops w id m sols ops) (fun '(sols, ops) => Ret (sols, o :: ops))
      else match op_user o with
           | None => rbind (sign_ops w id m sols ops) (fun '(sols, ops) => Ret (sols, o :: ops))
           | Some owner =>
             rbind (sign_msg_ex w id owner m sols) (fun '(m, sols, k) =>
               rbind (sign_ops w id m sols ops) (fun '(sols, ops) =>
                 Ret (sols, mk_op (op_address o) (op_call o) (op_deposit o) (op_user o) k :: ops)))
           end
    end.
  (** Transaction.cpp:227-262: None when the sum does not fit in 64 bits *)
  Definition calc_cost (t : txn) : res N :=
    let c := base_cost (parts_of t) + fold_right N.add 0 (map sol_cost (t_solutions t)) in if c <? 2^64 then Ret c else Throw.
  (** ECDSA_Wallet.h:345-350 *)
  Definition finalize (t : txn) (opts : options) : txn :=
    let nonce := match o_nonce opts with Some n => n | None => t_nonce t end in
    let nonce := if nonce =? 0 then rand else nonce in
    let t := mk_txn (t_version t) (t_expires t) (t_fee_ratio t) (t_static_cost t) (t_max_fee t) (t_note t) nonce network (t_sender t) (t_inputs t) (t_outputs t)
                    (t_execute t) (t_solutions t) (t_deploy t) (t_id t) (t_content_hash t) in
    mk_txn (t_version t) (t_expires t) (t_fee_ratio t) (t_static_cost t) (t_max_fee t) (t_note t) (t_nonce t) (t_network t) (t_sender t) (t_inputs t) (t_outputs t)
           (t_execute t) (t_solutions t) (t_deploy t) (calc_hash (core_of t)) (t_content_hash t).
  (** ECDSA_Wallet.h:345-418: the part in the try block; static_cost has 32 bits *)
  Definition sign_body (w : wallet) (t0 : txn) (opts : options) : res txn :=
    let t := finalize t0 opts in
    let id := t_id t in
    rbind (match t_sender t, t_solutions t with
           | Some a, [] => rbind (sign_msg_ex w id a [] []) (fun '(m, sols, _) => Ret (m, sols))
           | _, _ => Ret ([], t_solutions t)
           end) (fun '(m, sols) =>
    rbind (sign_inputs w id (o_owner_map opts) m sols (t_inputs t)) (fun '(m, sols, ins) =>
    rbind (sign_ops w id m sols (t_execute t)) (fun '(sols, ops) =>
    let t' cost := mk_txn (t_version t) (t_expires t) (t_fee_ratio t) cost (t_max_fee t) (t_note t) (t_nonce t) (t_network t) (t_sender t) ins (t_outputs t)
                          ops sols (t_deploy t) id (t_content_hash t) in
    rbind (calc_cost (t' (t_static_cost t))) (fun cost =>
    let t'' := t' (cost mod 2^32) in
    Ret (mk_txn (t_version t'') (t_expires t'') (t_fee_ratio t'') (t_static_cost t'') (t_max_fee t'') (t_note t'') (t_nonce t'') (t_network t'') (t_sender t'')
                (t_inputs t'') (t_outputs t'') (t_execute t'') (t_solutions t'') (t_deploy t'') (t_id t'') (full_hash t'')))))).
  (** The frame of sign_off (334-344, 419-426) and complete (444-457, 524-533): unlock if locked, and lock again, also after an exception *)
  Definition with_keys {A} (w : wallet) (opts : options) (body : wallet -> wallet * res A) : wallet * res A :=
    if is_locked w then
      match o_passphrase opts with
      | None => (w, Throw)
      | Some p => match unlock w p with
                  | Throw => (w, Throw)
                  | Ret w1 => let '(w2, r) := body w1 in (lock w2, r)
                  end
      end
    else body w.
  Definition sign_off (w : wallet) (t : txn) (opts : options) : wallet * res txn := with_keys w opts (fun w => (w, sign_body w t opts)).

  (** What ECDSA_Wallet.h:464-488, 490-520 choose: new amounts of the inputs that are there, new inputs, and a sender if there is none; [None]: not enough funds *)
  Variable choose : txn -> options -> option (list N * list (addr * addr * N * option bytes) * option addr).
  Definition cost_to_fee (cost ratio : N) : res N := let f := cost * ratio / 1024 in if f <? 2^64 then Ret f else Throw.
  (** ECDSA_Wallet.h:451-522; max_fee_amount has 32 bits *)
  Definition prepare (t : txn) (opts : options) : res txn :=
    let t1 := mk_txn version (N.min (t_expires t) (o_expires opts)) (N.max (t_fee_ratio t) (o_fee_ratio opts)) (t_static_cost t) (t_max_fee t)
                     (match o_note opts with Some n => n | None => t_note t end) (t_nonce t) (t_network t) (t_sender t) (t_inputs t) (t_outputs t) (t_execute t)
                     (t_solutions t) (t_deploy t) (t_id t) (t_content_hash t) in
    match choose t1 opts with
    | None => Throw
    | Some (amounts, new, picked) =>
      let ins := map (fun '(i, a) => mk_input (in_address i) (in_contract i) a (in_memo i) (in_solution i) (in_flags i)) (combine (t_inputs t1) amounts)
                 ++ map (fun '(a, c, n, m) => mk_input a c n m NO_SOLUTION 0) new in
      let t2 fee sender := mk_txn (t_version t1) (t_expires t1) (t_fee_ratio t1) (t_static_cost t1) fee (t_note t1) (t_nonce t1) (t_network t1) sender ins
                                  (t_outputs t1) (t_execute t1) (t_solutions t1) (t_deploy t1) (t_id t1) (t_content_hash t1) in
      rbind (calc_cost (t2 (t_max_fee t1) (t_sender t1))) (fun cost =>
      rbind (cost_to_fee cost (t_fee_ratio t1)) (fun _ =>
      rbind (cost_to_fee ((cost + o_gas_limit opts) mod 2^64) (t_fee_ratio t1)) (fun max_fee =>
      Ret (t2 (max_fee mod 2^32)
              (match t_sender t1 with Some a => Some a | None => match o_sender opts with Some a => Some a | None => picked end end)))))
    end.
  (** ECDSA_Wallet.h:444-533; sign_off is called with the keys there *)
  Definition complete (w : wallet) (t : txn) (opts : options) : wallet * res txn :=
    with_keys w opts (fun w => match prepare t opts with Throw => (w, Throw) | Ret t => sign_off w t opts end).

  (** Transaction.cpp:285-294 *)
  Definition is_signed (t : txn) : bool := forallb (fun i => (N.to_nat (in_solution i) <? List.length (t_solutions t))%nat) (t_inputs t).

  (** The node.  [contracts]: contract_map and contract_cache. *)
  Variable contracts : addr -> option contract.
  (** Contract.cpp:39-42, PubKey.cpp:47-66, MultiSig.cpp:43-103 *)
  Definition contract_validate (c : contract) (sol : option solution) (id : bytes) (version : N) : bool :=
    match c with
    | CPubKey a => pubkey_validate get_addr verify a sol id
    | CMultiSig m => multisig_validate get_addr verify m sol id version
    | COther => false
    end.
  (** Node_validate.cpp:645-656 *)
  Definition sender_ok (t : txn) : bool :=
    match t_sender t with
    | None => false
    | Some a => match t_solutions t with [] => false | s :: _ => pubkey_validate get_addr verify a (Some s) (t_id t) end
    end.
  (** Node_validate.cpp:679-696 *)
  Definition input_ok (t : txn) (i : input) : bool :=
    match get_solution t (in_solution i) with
    | None => false
    | Some s =>
      match (if N.testbit (in_flags i) 0 then contracts (in_address i) else Some (CPubKey (in_address i))) with
      | None => false
      | Some c => contract_validate c (Some s) (t_id t) (t_version t)
      end
    end.
  (** Node_validate.cpp:410-412, get_contract_for_ex of Node_api.cpp:628-636 *)
  Definition op_ok (t : txn) (o : op) : bool :=
    match op_user o with
    | None => true
    | Some u => contract_validate (match contracts u with Some c => c | None => CPubKey u end) (get_solution t (op_solution o)) (t_id t) (t_version t)
    end.
  Definition node_accepts_signatures (t : txn) : bool := sender_ok t && forallb (input_ok t) (t_inputs t) && forallb (op_ok t) (t_execute t).
  (** Transaction.cpp:79-108, 113-118, for version 1 and up: no solution twice, all of them in use; [sol_hash]: Solution::calc_hash *)
  Variable sol_hash : solution -> bytes.
  Fixpoint distinct (l : list bytes) : bool := match l with [] => true | x :: l => negb (existsb (addr_eqb x) l) && distinct l end.
  Definition used (t : txn) (k : nat) : bool :=
    (match t_sender t with Some _ => (k =? 0)%nat | None => false end)
    || existsb (fun i => (N.to_nat (in_solution i) =? k)%nat) (t_inputs t)
    || existsb (fun o => match op_user o with Some _ => (N.to_nat (op_solution o) =? k)%nat | None => false end) (t_execute t).
  Definition solutions_valid (t : txn) : bool :=
    (if 1 <=? t_version t then distinct (map sol_hash (t_solutions t)) && forallb (used t) (seq 0 (List.length (t_solutions t))) else true)
    && (List.length (t_solutions t) <=? N.to_nat 65535)%nat && addr_eqb (t_id t) (calc_hash (core_of t)).

  (** The wallet as a service.  What was given to the node, the log of sent transactions (tx_log), and the ids and amounts taken off the balances (update_from,
      ECDSA_Wallet.h:218-240, modelled in WalletModel: here the transactions it was called with) *)
  Record world := mk_world { v_wallet : wallet; v_sent : list txn; v_log : list txn; v_taken : list txn }.
  (** [accept]: Node::add_transaction with pre_validate (Node.cpp:411-434) does not throw; [validates]: Node::validate does not throw *)
  Variables (accept validates : txn -> bool).
  (** Wallet.cpp:578-601 *)
  Definition send_off (v : world) (t : txn) : world * res unit :=
    if accept t then (mk_world (v_wallet v) (v_sent v ++ [t]) (v_log v ++ [t]) (v_taken v ++ [t]), Ret tt)
    else (v, Throw).
  (** The common end of send, send_many, send_from, deploy, execute and deposit, Wallet.cpp:122-135, 158-170, 201-214, 233-246, 266-279, 301-314 *)
  Definition dispatch (v : world) (t : txn) (opts : options) : world * res txn :=
    let '(w, r) := complete (v_wallet v) t opts in
    let v := mk_world w (v_sent v) (v_log v) (v_taken v) in
    match r with
    | Throw => (v, Throw)
    | Ret t =>
      let '(v, ok) := if is_signed t then (if o_auto_send opts then send_off v t else (v, if validates t then Ret tt else Throw)) else (v, Ret tt) in
      match ok with
      | Throw => (v, Throw)
      | Ret _ => (if o_mark_spent opts then mk_world (v_wallet v) (v_sent v) (v_log v) (v_taken v ++ [t]) else v, Ret t)
      end
    end.
  (** Transaction::create(): interface/Transaction.vni *)
  Definition empty_txn : txn := mk_txn 0 (2^32 - 1) 1024 0 0 0 0 [] None [] [] [] [] None [] [].
  Definition with_parts (note : N) (ins : list input) (outs : list output) (ops : list op) (dep : option bytes) : txn :=
    mk_txn 0 (2^32 - 1) 1024 0 0 note 0 [] None ins outs ops [] dep [] [].
  Definition ZERO_ADDR : addr := repeat 0 32.
  Definition memo_ok (m : option bytes) : bool := match m with Some m => (List.length m <=? 64)%nat | None => true end.
  (** what can be asked for; the numbers of the notes are those of tx_note_e as far as they matter here: pairwise different *)
  Inductive request :=
  | Send (amount : N) (dst currency : addr)
  | SendMany (amounts : list (addr * N)) (currency : addr)
  | SendFrom (amount : N) (dst src currency : addr)
  | Deploy (code : bytes) (valid : bool)
  | Execute (address : addr) (call : bytes) (user : option nat)
  | Deposit (address : addr) (call : bytes) (amount : N) (currency : addr).
  (** [None]: an exception.  Wallet.cpp:105-121, 138-157, 173-200, 217-232, 248-265, 281-300 *)
  Definition build (v : world) (r : request) (opts : options) : option (txn * options) :=
    match r with
    | Send amount dst currency =>
      if amount =? 0 then None else if addr_eqb dst ZERO_ADDR then None else if negb (memo_ok (o_memo opts)) then None
      else Some (with_parts 1 [] [mk_output dst currency amount (o_memo opts)] [] None, opts)
    | SendMany amounts currency =>
      if existsb (fun '(a, n) => addr_eqb a ZERO_ADDR || (n =? 0)) amounts then None
      else if negb (memo_ok (o_memo opts)) && negb (match amounts with [] => true | _ => false end) then None
      else Some (with_parts 1 [] (map (fun '(a, n) => mk_output a currency n (o_memo opts)) amounts) [] None, opts)
    | SendFrom amount dst src currency =>
      match (match contracts src with
             | Some (CPubKey o) => Some (match lookup (o_owner_map opts) src with Some _ => o_owner_map opts | None => (src, o) :: o_owner_map opts end)
             | Some _ => None
             | None => Some (o_owner_map opts)
             end) with
      | None => None
      | Some owners =>
        if amount =? 0 then None else if addr_eqb dst ZERO_ADDR then None else if negb (memo_ok (o_memo opts)) then None
        else Some (with_parts 2 [mk_input src currency amount None NO_SOLUTION 0] [mk_output dst currency amount (o_memo opts)] [] None,
                   mk_options (o_auto_send opts) (o_mark_spent opts) (o_fee_ratio opts) (o_gas_limit opts) (o_expires opts) (o_nonce opts) (o_user opts) (o_sender opts)
                              (o_passphrase opts) (o_note opts) (o_memo opts) owners)
      end
    | Deploy code valid => if negb valid then None else Some (with_parts 3 [] [] [] (Some code), opts)
    | Execute address call user =>
      match user with
      | None => Some (with_parts 4 [] [] [mk_op address call None (o_user opts) NO_SOLUTION] None, opts)
      | Some u => match nth_error (w_addresses (v_wallet v)) u with
                  | None => None
                  | Some a => Some (with_parts 4 [] [] [mk_op address call None (Some a) NO_SOLUTION] None, opts)
                  end
      end
    | Deposit address call amount currency => Some (with_parts 5 [] [] [mk_op address call (Some (currency, amount)) (o_user opts) NO_SOLUTION] None, opts)
    end.
  Definition perform (v : world) (r : request) (opts : options) : world * res txn :=
    match build v r opts with None => (v, Throw) | Some (t, opts) => dispatch v t opts end.

  (** The lock over time, for an account.  [g_timer]: when the timer in lock_timers runs out. *)
  Record guard := mk_guard { g_world : world; g_timer : option N }.
  Variable lock_timeout : N.   (** milliseconds, Wallet.cpp:897-905 *)
  Inductive action :=
  | AUnlock (p : bytes) | ALock | ASignMsg (a : addr) (msg : bytes) | ASignOff (t : txn) (opts : options) | AComplete (t : txn) (opts : options)
  | ASendOff (t : txn) | APerform (r : request) (opts : options).
  (** what comes back: nothing, a signature or a transaction *)
  Inductive answer := Failed | Done | Signature (s : option solution) | Signed (t : txn).
  Definition set_wallet (v : world) (w : wallet) : world := mk_world w (v_sent v) (v_log v) (v_taken v).
  (** set_timeout_millis; a timer that is due goes off before anything else is done *)
  Definition expire (g : guard) (now : N) : guard :=
    match g_timer g with
    | Some d => if d <=? now then mk_guard (set_wallet (g_world g) (lock (v_wallet (g_world g)))) None else g
    | None => g
    end.
  Definition answer_of (r : res txn) : answer := match r with Throw => Failed | Ret t => Signed t end.
  (** Wallet.cpp:583-590: send_off starts the timer again, before anything else *)
  Definition restart (g : guard) (now : N) : option N := match g_timer g with Some _ => Some (now + lock_timeout) | None => None end.
  Definition act (g : guard) (now : N) (a : action) : guard * answer :=
    let g := expire g now in
    let v := g_world g in
    let w := v_wallet v in
    match a with
    | AUnlock p =>
      match unlock w p with
      | Throw => (g, Failed)
      | Ret w => (mk_guard (set_wallet v w) (if c_with_passphrase cfg && (0 <? lock_timeout) then Some (now + lock_timeout) else g_timer g), Done)
      end
    | ALock => (mk_guard (set_wallet v (lock w)) (g_timer g), Done)
    | ASignMsg a msg => (g, match sign_msg w a msg with Throw => Failed | Ret s => Signature s end)
    | ASignOff t opts => let '(w, r) := sign_off w t opts in (mk_guard (set_wallet v w) (g_timer g), answer_of r)
    | AComplete t opts => let '(w, r) := complete w t opts in (mk_guard (set_wallet v w) (g_timer g), answer_of r)
    | ASendOff t => let '(v, r) := send_off v t in (mk_guard v (restart g now), match r with Throw => Failed | Ret _ => Done end)
    | APerform r opts =>
      let '(v', x) := perform v r opts in
      let sends := match build v r opts with
                   | Some (t, opts) => o_auto_send opts && match snd (complete w t opts) with Ret t => is_signed t | Throw => false end
                   | None => false
                   end in
      (mk_guard v' (if sends then restart g now else g_timer g), answer_of x)
    end.
  (** a history: times and actions *)
  Fixpoint acts (g : guard) (l : list (N * action)) : guard * list answer :=
    match l with [] => (g, []) | (now, a) :: l => let '(g, x) := act g now a in let '(g, xs) := acts g l in (g, x :: xs) end.
End SIGN.
