(** Validation and execution of one transaction: /repo/src/Node_validate.cpp:389-463, 608-945, with
    include/mmx/utils.h:358-402 and src/Transaction.cpp:34-46, 227-262.  Contract calls are those of ExecModel.v. *)
Require Import List Arith NArith ZArith Bool.
From Verif Require Import BytesLib OrdLib VarModel InstrModel EngineModel ExecModel StorModel.
Import ListNotations.
Open Scope N_scope.

(** interface/txin_t.vni, txio_t.vni; [ti_exec]: flag IS_EXEC *)
Record txin := mk_txin { ti_address : addr; ti_currency : addr; ti_amount : N; ti_memo : option bytes; ti_exec : bool; ti_sol : N }.
(** interface/exec_result_t.vni.  Error code, address, line and message, which depend on nothing but the execution, are left out. *)
Record result := mk_result { rs_fail : bool; rs_cost : N; rs_fee : N; rs_inputs : list txin; rs_outputs : list txout }.
(** interface/operation/Execute.vni, Deposit.vni.  [op_call]: [None] for an operation that is neither; [op_valid]: it is not null and
    [is_valid] holds. *)
Record call := mk_call { cl_method : bytes; cl_args : list vnt; cl_user : option addr; cl_sol : N; cl_deposit : option (addr * N) }.
Record op := mk_op { op_valid : bool; op_address : addr; op_call : option call }.
(** tx->deploy; the constructor and its arguments are those of an executable contract *)
Record deploy := mk_deploy { dp_valid : bool; dp_contract : contract; dp_init : bytes; dp_args : list vnt }.
(** What a contract says about a solution: [Invalid] is mmx::invalid_solution, a static failure; [Refused] any other exception *)
Inductive check := Accepted | Invalid | Refused.
(** interface/Transaction.vni.  [t_valid]: the checks of Transaction::is_valid that do not concern static_cost and fee_ratio, and the version.
    [t_base]: the part of calc_cost that does not depend on exec_result.
    [t_key a i]: what the PubKey contract of address [a] says about solution [i] of this transaction, [t_sol a i]: what the
    contract that is stored under [a] says if it is not executable (a public key if there is none); [Invalid] or [Refused] when there is no solution [i]. *)
Record tx := mk_tx {
  t_valid : bool; t_id : addr; t_version : N; t_expires : N; t_ratio : N; t_max_fee : N; t_sender : option addr;
  t_inputs : list txin; t_outputs : list txout; t_deploy : option deploy; t_ops : list op;
  t_base : N; t_nsol : N; t_key : addr -> N -> check; t_sol : addr -> N -> check;
  t_result : option result }.
(** Transaction::update, src/Transaction.cpp:41-46 *)
Definition update (r : result) (t : tx) : tx :=
  mk_tx (t_valid t) (t_id t) (t_version t) (t_expires t) (t_ratio t) (t_max_fee t) (t_sender t) (t_inputs t) (t_outputs t) (t_deploy t)
        (t_ops t) (t_base t) (t_nsol t) (t_key t) (t_sol t) (Some r).

(** What the node brings along: parameters, contracts and the height; see [env] in ExecModel.v for the fields of the same name.
    [n_locked t]: the contracts that transaction [t] has locked (src/Node_validate.cpp:78-105). *)
Record node := mk_node {
  n_max_cost : N;                       (** params->max_tx_cost *)
  n_in_cost : txin -> N; n_out_cost : txout -> N;     (** txio_t::calc_cost *)
  n_exists : addr -> bool;              (** tx_index.count *)
  n_ext : ext; n_contract : addr -> option contract; n_binary : addr -> option binary; n_read_cost : addr -> N;
  n_fee_exec : N; n_hf2 : bool; n_network : bytes; n_height : N;
  n_locked : tx -> addr -> bool }.
Definition tx_env (n : node) (bk : backend) (t : tx) : env :=
  mk_env bk (n_ext n) (n_contract n) (n_binary n) (n_read_cost n) (n_fee_exec n) (n_hf2 n) (n_network n) (n_height n)
         (t_id t) (t_version t) (option_map dp_contract (t_deploy t)) (n_locked n t).

(** include/mmx/utils.h:384-402; [None]: "overflow" *)
Definition cost_to_fee (cost ratio : N) : option N := let f := cost * ratio / 1024 in if 2 ^ 64 <=? f then None else Some f.
Definition fee_to_cost (fee ratio : N) : option N := let c := fee * 1024 / ratio in if 2 ^ 64 <=? c then None else Some c.
(** src/exec_result_t.cpp:48-58 *)
Definition io_cost (n : node) (ins : list txin) (outs : list txout) : N :=
  fold_right (fun i c => n_in_cost n i + c) 0 ins + fold_right (fun o c => n_out_cost n o + c) 0 outs.
(** src/Transaction.cpp:227-262 *)
Definition static_cost (n : node) (t : tx) : N :=
  t_base t + match t_result t with Some r => io_cost n (rs_inputs r) (rs_outputs r) | None => 0 end.

(** include/mmx/balance_cache_t.h: a copy of the balances that are used *)
Definition balances := addr -> addr -> option N.
Definition set_balance (b : balances) (a cur : addr) (v : N) : balances :=
  fun a' cur' => if addr_eqb a' a && addr_eqb cur' cur then Some v else b a' cur'.
(** the sum of what was added to one entry of a std::map of amounts, when the map is kept as a list of increments *)
Definition total (k : addr * addr) (l : list ((addr * addr) * N)) : N :=
  fold_right (fun e s => (if bal_eqb (fst e) k then snd e else 0) + s) 0 l.
(** the locals of [Node::validate].  deposit_map is a list of increments; its sums do not reach 2^128 because every deposit is
    taken from [amounts]. *)
Record tst := mk_tst { x_cost : N; x_bal : balances; x_amounts : list (addr * N); x_dep : list ((addr * addr) * N); x_world : world }.
Definition set_cost c x := mk_tst c (x_bal x) (x_amounts x) (x_dep x) (x_world x).
Definition set_world' w x := mk_tst (x_cost x) (x_bal x) (x_amounts x) (x_dep x) w.
(** operator[] of a map of numbers *)
Definition mget {K} (eqb : K -> K -> bool) (k : K) (l : list (K * N)) : N := match lfind eqb k l with Some v => v | None => 0 end.
(** [TFail]: an exception that makes the transaction fail; [TStatic]: mmx::static_failure *)
Inductive tres (A : Type) := TOk (a : A) (x : tst) | TFail (x : tst) | TStatic | TUndef | TFuel.
Arguments TOk {A}. Arguments TFail {A}. Arguments TStatic {A}. Arguments TUndef {A}. Arguments TFuel {A}.
Definition TM (A : Type) := tst -> tres A.
Definition tret {A} (a : A) : TM A := TOk a.
Definition tfail {A} : TM A := TFail.
Definition tbind {A B} (m : TM A) (f : A -> TM B) : TM B :=
  fun x => match m x with TOk a x => f a x | TFail x => TFail x | TStatic => TStatic | TUndef => TUndef | TFuel => TFuel end.
Notation "x <== m ;; k" := (tbind m (fun x => k)) (at level 61, m at next level, right associativity).
Fixpoint teach {A} (f : A -> TM unit) (l : list A) : TM unit :=
  match l with [] => tret tt | a :: l => _ <== f a ;; teach f l end.
Definition tget : TM tst := fun x => TOk x x.
Definition tset (x : tst) : TM unit := fun _ => TOk tt x.
Definition tcheck (c : check) : TM unit := match c with Accepted => tret tt | Invalid => fun _ => TStatic | Refused => tfail end.

Section TX.
  Variable n : node.
  Variable bk : backend.
  Variable t : tx.
  Let E := tx_env n bk t.

  (** What the contract under [a] (a public key if there is none) says about a solution: an executable has no [validate] of its own and
      refuses every solution (src/Contract.cpp:39-42; src/contract/Executable.cpp has none). *)
  Definition solution (a : addr) (i : N) : check :=
    match n_contract n a with
    | Some k => match k_exec k with Some _ => Refused | None => t_sol t a i end
    | None => t_sol t a i
    end.
  (** src/Node_api.cpp:591-602 with tx_cost as read_cost *)
  Definition read_cost (limit : N) (a : addr) : TM unit :=
    x <== tget ;;
    if limit <? x_cost x + n_read_cost n a then tfail else tset (set_cost (x_cost x + n_read_cost n a) x).
  (** nested calls; each one costs [n_fee_exec] *)
  Definition depth : nat := S (N.to_nat (n_max_cost n / n_fee_exec n)).
  (** Node_validate.cpp:399-441: before the try block that is followed by line 446 *)
  Definition exec_before (address : addr) (c : call) : M unit :=
    start_setup E address (cl_user c) ;;;
    add_deposit E (cl_deposit c) ;;;
    (if n_hf2 n then ret tt else op_setup E (cl_deposit c) (cl_args c)).
  (** Node_validate.cpp:442-444 *)
  Definition exec_rest (ex : addr * list (bytes * addr)) (c : call) (is_init : bool) : M unit :=
    m <- prepare E (fst ex) (cl_method c) is_init ;;
    (if n_hf2 n then op_setup E (cl_deposit c) (cl_args c) else ret tt) ;;;
    run_method E (remote_call E depth) (snd ex) m.
  (** Node_validate.cpp:389-463; tx_cost grows also when the call fails (line 446).
      [avail]: fee_to_cost of max_fee_amount. *)
  Definition exec_op (avail : N) (k : contract) (address : addr) (c : call) (is_init : bool) : TM unit :=
    match k_exec k with
    | None => tfail
    | Some ex =>
      x <== tget ;;
      let limit := N.min (avail - N.min (x_cost x) avail) (n_max_cost n) in
      let s := engine_new address (t_version t) limit false (x_world x) in
      _ <== match cl_user c with
           | Some u => match charge_contract E u s with Ok _ _ => tcheck (solution u (cl_sol c)) | _ => tfail end
           | None => tret tt
           end ;;
      match exec_before address c s with
      | Ok _ s =>
        match exec_rest ex c is_init s with
        | Ok _ s => tset (set_world' (s_world s) (set_cost (x_cost x + N.min (s_gas s) limit) x))
        | Throw s => fun _ => TFail (set_world' (s_world s) (set_cost (x_cost x + N.min (s_gas s) limit) x))
        | Undefined _ => fun _ => TUndef
        | Fuel => fun _ => TFuel
        end
      | Throw _ => tfail
      | Undefined _ => fun _ => TUndef
      | Fuel => fun _ => TFuel
      end
    end.

  (** Node_validate.cpp:672-703 *)
  Definition do_input (limit : N) (i : txin) : TM unit :=
    x <== tget ;;
    match x_bal x (ti_address i) (ti_currency i) with
    | None => tfail
    | Some b =>
      if b <? ti_amount i then tfail
      else if t_nsol t <=? ti_sol i then fun _ => TStatic
      else
        _ <== (if ti_exec i then
                _ <== read_cost limit (ti_address i) ;;
                match n_contract n (ti_address i) with None => tfail | Some _ => tcheck (solution (ti_address i) (ti_sol i)) end
              else tcheck (t_key t (ti_address i) (ti_sol i))) ;;
        x <== tget ;;
        tset (mk_tst (x_cost x) (set_balance (x_bal x) (ti_address i) (ti_currency i) (b - ti_amount i))
                     ((ti_currency i, (mget addr_eqb (ti_currency i) (x_amounts x) + ti_amount i) mod 2 ^ 128) :: x_amounts x)
                     (x_dep x) (x_world x))
    end.
  (** lines 706-717 *)
  Definition do_output (o : txout) : TM unit :=
    x <== tget ;;
    let v := mget addr_eqb (to_currency o) (x_amounts x) in
    if to_amount o =? 0 then tfail
    else if v <? to_amount o then tfail
    else tset (mk_tst (x_cost x) (x_bal x) ((to_currency o, v - to_amount o) :: x_amounts x) (x_dep x) (x_world x)).
  (** lines 720-742 *)
  Definition do_deploy (avail : N) (d : deploy) : TM unit :=
    if negb (dp_valid d) then tfail
    else match k_exec (dp_contract d) with
         | None => tret tt
         | Some ex =>
           if forallb (fun e => n_exists n (snd e)) (snd ex)
           then exec_op avail (dp_contract d) (t_id t) (mk_call (dp_init d) (dp_args d) None 0 None) true
           else tfail
         end.
  Definition zero_addr : addr := repeat 0 32.
  (** lines 745-773 *)
  Definition do_op (avail limit : N) (o : op) : TM unit :=
    if negb (op_valid o) then tfail
    else
      let address := if addr_eqb (op_address o) zero_addr then t_id t else op_address o in
      k <== (if addr_eqb address (t_id t) then tret (option_map dp_contract (t_deploy t))
            else _ <== read_cost limit address ;; tret (n_contract n address)) ;;
      match k with
      | None => tfail
      | Some k =>
        _ <== match op_call o with
             | Some c =>
               match cl_deposit c with
               | Some (cur, amount) =>
                 x <== tget ;;
                 let v := mget addr_eqb cur (x_amounts x) in
                 if v <? amount then tfail
                 else tset (mk_tst (x_cost x) (x_bal x) ((cur, v - amount) :: x_amounts x)
                                   (((address, cur), amount) :: x_dep x) (x_world x))
               | None => tret tt
               end
             | None => tret tt
             end ;;
        match op_call o with
        | Some c => exec_op avail k address c false
        | None => tret tt
        end
      end.
  (** lines 777-793; the maps are visited in the order of their keys *)
  Definition exec_inputs (x : tst) : list txin :=
    flat_map (fun k => let spend := total k (w_spend (x_world x)) in
                       let left := spend - N.min (total k (x_dep x)) spend in
                       if left =? 0 then [] else [mk_txin (fst k) (snd k) left None false 65535])
             (map fst (items bal_cmp (w_spend (x_world x)))).
  (** lines 796-804: what is left of the deposits *)
  Definition deposit_outputs (x : tst) : list txout :=
    flat_map (fun k => let deposit := total k (x_dep x) in
                       let left := deposit - N.min deposit (total k (w_spend (x_world x))) in
                       if left =? 0 then [] else [mk_txout (fst k) (snd k) left None])
             (map fst (items bal_cmp (x_dep x))).
  (** include/mmx/utils.h:358-382.  Before hardfork2 the order of the outputs is that of an unordered_map; here they are sorted. *)
  Definition implicit_deposit (x : tst) : option (list txout) :=
    let l := filter (fun e => negb (snd e =? 0)) (items bytescmp (x_amounts x)) in
    match t_deploy t, l with
    | None, _ :: _ => None
    | _, _ => Some (map (fun e => mk_txout (t_id t) (fst e) (snd e) None) l)
    end.
  (** lines 667-820: the try block; the result is [exec_inputs] and [exec_outputs].  tx_cost does not reach 2^64. *)
  Definition try_block (avail limit : N) : TM (list txin * list txout) :=
    if t_expires t <? n_height n then tfail
    else
      _ <== teach (do_input limit) (t_inputs t) ;;
      _ <== teach do_output (t_outputs t) ;;
      _ <== match t_deploy t with Some d => do_deploy avail d | None => tret tt end ;;
      _ <== teach (do_op avail limit) (t_ops t) ;;
      x <== tget ;;
      let ins := exec_inputs x in
      match implicit_deposit x with
      | None => tfail
      | Some imp =>
        let outs := w_outs (x_world x) ++ deposit_outputs x ++ imp in
        let cost := x_cost x + match t_result t with Some _ => 0 | None => io_cost n ins outs end in
        _ <== tset (set_cost cost x) ;;
        if n_max_cost n <? cost then fun _ => TStatic
        else if 2 ^ 32 <=? cost then fun _ => TStatic
        else tret (ins, outs)
      end.

  (** How the validation of a transaction ends.  [VReject]: an exception that makes a block invalid, [VStatic]: mmx::static_failure
      (makes a block invalid too; the transaction is not added to a block).
      [VDone]: the result of the execution and, when it did not fail, the content of the storage cache that is committed. *)
  Inductive outcome := VStatic | VReject | VDone (r : result) (w : option world) | VUndef | VFuel.

  Definition txin_eqb (a b : txin) : bool :=
    addr_eqb (ti_currency a) (ti_currency b) && addr_eqb (ti_address a) (ti_address b) && (ti_amount a =? ti_amount b)
    && match ti_memo a, ti_memo b with Some x, Some y => addr_eqb x y | None, None => true | _, _ => false end && Bool.eqb (ti_exec a) (ti_exec b).
  Definition txout_eqb (a b : txout) : bool :=
    addr_eqb (to_currency a) (to_currency b) && addr_eqb (to_address a) (to_address b) && (to_amount a =? to_amount b)
    && match to_memo a, to_memo b with Some x, Some y => addr_eqb x y | None, None => true | _, _ => false end.
  Fixpoint list_eqb {A} (eqb : A -> A -> bool) (l l' : list A) : bool :=
    match l, l' with [], [] => true | a :: l, a' :: l' => eqb a a' && list_eqb eqb l l' | _, _ => false end.

  (** lines 825-945.  [failed]: failed_ex is set *)
  Definition settle_fee (sender : addr) (static_fee : N) (failed : bool) (io : list txin * list txout) (x : tst) : outcome :=
    match cost_to_fee (x_cost x) (t_ratio t) with
    | None => VStatic
    | Some total =>
      let fee := N.min total (t_max_fee t) in
      let dynamic := fee - static_fee in
      match x_bal x sender zero_addr with
      | None => VStatic
      | Some b =>
        if b <? dynamic then VStatic
        else
          let failed := failed || (t_max_fee t <? total) in
          let w := if failed then None else Some (x_world x) in
          match t_result t with
          | None => VDone (mk_result failed (x_cost x) fee (if failed then [] else fst io) (if failed then [] else snd io)) w
          | Some r =>
            if negb (Bool.eqb (rs_fail r) failed) then VReject
            else if negb (rs_cost r =? x_cost x) then VReject
            else if negb (rs_fee r =? fee) then VReject
            else if failed then
              match rs_inputs r, rs_outputs r with [], [] => VDone r w | _, _ => VReject end
            else if list_eqb txin_eqb (fst io) (rs_inputs r) && list_eqb txout_eqb (snd io) (rs_outputs r) then VDone r w
            else VReject
          end
      end
    end.
  (** lines 608-665 and the rest *)
  Definition validate (bal : balances) : outcome :=
    if negb (t_valid t && (1024 <=? t_ratio t)) then VStatic
    else if n_max_cost n <? static_cost n t then VStatic
    else if 2 ^ 32 <=? t_max_fee t then VStatic
    else if n_exists n (t_id t) then VStatic
    else
      match fee_to_cost (t_max_fee t) (t_ratio t), cost_to_fee (static_cost n t) (t_ratio t) with
      | Some avail, Some static_fee =>
        if t_max_fee t <? static_fee then VStatic
        else
          match t_sender t with
          | None => VStatic
          | Some sender =>
            if t_nsol t =? 0 then VStatic
            else match t_key t sender 0 with
            | Accepted =>
              match bal sender zero_addr with
              | None => VStatic
              | Some b =>
                if b <? static_fee then VStatic
                else
                  let limit := N.min avail (n_max_cost n) in
                  let x := mk_tst (static_cost n t) (set_balance bal sender zero_addr (b - static_fee)) [] [] (mk_world ram_empty [] []) in
                  match try_block avail limit x with
                  | TOk io x => settle_fee sender static_fee false io x
                  | TFail x => settle_fee sender static_fee true ([], []) x
                  | TStatic => VStatic
                  | TUndef => VUndef
                  | TFuel => VFuel
                  end
              end
            | Invalid => VStatic
            | Refused => VReject
            end
          end
      | _, _ => VStatic
      end.
End TX.

(** What a transaction of a block takes and gives: src/Block.cpp:79-98 and 122-130, src/Transaction.cpp:204-220 *)
Definition block_inputs (t : tx) (r : result) : list txin :=
  match t_sender t with Some a => [mk_txin a zero_addr (rs_fee r) None false 0] | None => [] end
  ++ (if rs_fail r then [] else t_inputs t ++ rs_inputs r).
Definition block_outputs (t : tx) (r : result) : list txout := if rs_fail r then [] else t_outputs t ++ rs_outputs r.
