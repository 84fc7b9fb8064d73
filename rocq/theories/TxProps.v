(** C26-C28, C59, C60: what executing a transaction does *)
Require Import List Arith NArith ZArith Bool Lia.
From Verif Require Import BytesLib OrdLib VarModel InstrModel EngineModel EngineSpec EngineProofs EngineUpper ExecModel ExecSpec ExecProofs ExecCases
  StorModel TxModel TxSpec TxProofs.
Import ListNotations.
Open Scope N_scope.

(** ** A case that is used below *)
Definition aS := repeat 8 32.   (** the sender *)
Definition aO := repeat 10 32.  (** another owner *)
Definition node0 (code : list instr) (max : N) : node :=
  mk_node max (fun _ => 1000) (fun _ => 1000) (fun _ => false) ext0
    (e_contract (env0 code const_all code_ret5 [VNil; VUint 5] true)) (e_binary (env0 code const_all code_ret5 [VNil; VUint 5] true))
    (fun _ => 2000) 10000 true [109] 77 (fun _ a => addr_eqb a aA || addr_eqb a aB).
Definition tx0 (max_fee amount : N) (r : option result) : tx :=
  mk_tx true (repeat 9 32) 1 100 2048 max_fee (Some aS)
    [mk_txin aO cur0 50 None false 1; mk_txin aS zero_addr 7 None false 0]
    [mk_txout aB cur0 40 None; mk_txout aO zero_addr 7 None] None
    [mk_op true aA (Some (mk_call [109] [] None 0 (Some (cur0, amount))))]
    20000 2 (fun a i => if (addr_eqb a aS && (i =? 0)) || (addr_eqb a aO && (i =? 1)) then Accepted else Invalid)
    (fun _ _ => Refused) r.
Definition balances0 : balances := fun a cur =>
  if addr_eqb a aS && addr_eqb cur zero_addr then Some 1000000 else if addr_eqb a aO && addr_eqb cur cur0 then Some 60 else None.
Definition result_of (o : outcome) : option result := match o with VDone r _ => Some r | _ => None end.
(** 50 come from the other owner, 40 of them go to B, 10 to contract A, which sends 30 to B: 20 are taken from contract A *)
Example executes : result_of (validate (node0 code_all 1000000) bk0 (tx0 500000 10 None) balances0)
  = Some (mk_result false 55191 110382 [mk_txin aA cur0 20 None false 65535] [mk_txout aB cur0 30 None]).
Proof. vm_compute. reflexivity. Qed.
(** it runs out of gas in the contract call after 15 of them were sent *)
Example fails : result_of (validate (node0 code_all 1000000) bk0 (tx0 70000 10 None) balances0) = Some (mk_result true 35000 70000 [] []).
Proof. vm_compute. reflexivity. Qed.
Definition world_of (o : outcome) : option world := match o with VDone _ w => w | _ => None end.
Example hypotheses : backend_ok bk0 /\ 0 < n_fee_exec (node0 code_all 1000000) /\ active (node0 code_all 1000000) (tx0 500000 10 None) cur0 = false.
Proof. split; [exact bk0_ok|]. split; reflexivity. Qed.

(** ** C26.  A transaction that executes takes and gives the same amount of every currency that has no executable contract or whose contract it has not locked: what its inputs
    bring and what is drawn from contracts is what its outputs and the outputs of contracts (among them deposits that stay in a
    contract) give.  Of a currency whose contract takes part it may give more: what that contract mints. *)
Theorem C26_currencies_are_conserved : forall n bk t bal r w,
  backend_ok bk -> 0 < n_fee_exec n -> validate n bk t bal = VDone r w -> rs_fail r = false ->
  forall cur, active n t cur = false -> in_sum cur (t_inputs t) < 2 ^ 128 ->
  in_sum cur (t_inputs t) + in_sum cur (rs_inputs r) = out_sum cur (t_outputs t) + out_sum cur (rs_outputs r).
Proof.
  intros n bk t bal r w B F V RF cur L S. pose proof (validate_ok n bk B F t bal r w V) as X.
  pose proof (ex_le _ _ _ _ _ _ X RF cur L) as A. pose proof (ex_ge _ _ _ _ _ _ X RF cur S) as C.
  unfold all_inputs, all_outputs in *. rewrite out_sum_app, in_sum_app in *. lia.
Qed.
Print Assumptions C26_currencies_are_conserved.
(** whatever the sum of the inputs: 2^128 is not reached by wrapping around *)
Theorem C26_nothing_is_created : forall n bk t bal r w,
  backend_ok bk -> 0 < n_fee_exec n -> validate n bk t bal = VDone r w -> rs_fail r = false ->
  forall cur, active n t cur = false ->
  out_sum cur (t_outputs t) + out_sum cur (rs_outputs r) <= in_sum cur (t_inputs t) + in_sum cur (rs_inputs r).
Proof.
  intros n bk t bal r w B F V RF cur L. pose proof (validate_ok n bk B F t bal r w V) as X.
  pose proof (ex_le _ _ _ _ _ _ X RF cur L) as A. unfold all_inputs, all_outputs in *. rewrite out_sum_app, in_sum_app in *. lia.
Qed.
Print Assumptions C26_nothing_is_created.
Theorem C26_nothing_is_lost : forall n bk t bal r w,
  backend_ok bk -> 0 < n_fee_exec n -> validate n bk t bal = VDone r w -> rs_fail r = false ->
  forall cur, in_sum cur (t_inputs t) < 2 ^ 128 ->
  in_sum cur (t_inputs t) + in_sum cur (rs_inputs r) <= out_sum cur (t_outputs t) + out_sum cur (rs_outputs r).
Proof.
  intros n bk t bal r w B F V RF cur S. pose proof (validate_ok n bk B F t bal r w V) as X.
  pose proof (ex_ge _ _ _ _ _ _ X RF cur S) as C. unfold all_inputs, all_outputs in *. rewrite out_sum_app, in_sum_app in *. lia.
Qed.
Print Assumptions C26_nothing_is_lost.
(** a contract's balance grows by no more than what it is given and not drawn from it *)
Theorem C26_contract_balance : forall n bk t bal r w,
  backend_ok bk -> 0 < n_fee_exec n -> validate n bk t bal = VDone r (Some w) ->
  forall c cur, balance_of bk w c cur + in_from c cur (rs_inputs r) <= balance_of bk (mk_world ram_empty [] []) c cur + out_to c cur (rs_outputs r).
Proof.
  intros n bk t bal r w B F V. pose proof (validate_ok n bk B F t bal r (Some w) V) as X.
  destruct (ex_world _ _ _ _ _ _ X w eq_refl) as (_ & H). exact H.
Qed.
Print Assumptions C26_contract_balance.
Example C26_case : let r := mk_result false 55191 110382 [mk_txin aA cur0 20 None false 65535] [mk_txout aB cur0 30 None] in
  let t := tx0 500000 10 None in
  exists w, validate (node0 code_all 1000000) bk0 t balances0 = VDone r (Some w) /\ rs_fail r = false /\ in_sum cur0 (t_inputs t) = 50 /\
    in_sum cur0 (rs_inputs r) = 20 /\ out_sum cur0 (t_outputs t) = 40 /\ out_sum cur0 (rs_outputs r) = 30 /\
    balance_of bk0 (mk_world ram_empty [] []) aA cur0 = 100 /\ balance_of bk0 w aA cur0 = 80.
Proof.
  cbv zeta. eexists. split; [vm_compute; reflexivity|]. split; [reflexivity|]. split; [vm_compute; reflexivity|]. split; [vm_compute; reflexivity|].
  split; [vm_compute; reflexivity|]. split; [vm_compute; reflexivity|]. split; vm_compute; reflexivity.
Qed.

(** ** C27.  The fee of a transaction that is executed, be it with success or not *)
Theorem C27_fee_bounds : forall n bk t bal r w,
  backend_ok bk -> 0 < n_fee_exec n -> validate n bk t bal = VDone r w ->
  exists sender, t_sender t = Some sender /\
    static_cost n t * t_ratio t / 1024 <= rs_fee r /\ rs_fee r <= t_max_fee t /\ rs_fee r <= bal0 bal sender zero_addr.
Proof.
  intros n bk t bal r w B F V. pose proof (validate_ok n bk B F t bal r w V) as X.
  destruct (ex_fee _ _ _ _ _ _ X) as (s & f & E1 & E2 & E3 & E4 & _). exists s. split; auto.
  unfold cost_to_fee in E2. cbv zeta in E2. destruct (2 ^ 64 <=? _); [discriminate|]. injection E2 as ->. tauto.
Qed.
Print Assumptions C27_fee_bounds.
(** The sender can pay the fee also after all inputs of the transaction were taken; and so can every owner what is taken from them. *)
Theorem C27_balances_suffice : forall n bk t bal r w,
  backend_ok bk -> 0 < n_fee_exec n -> validate n bk t bal = VDone r w -> rs_fail r = false ->
  forall a cur,
    (if match t_sender t with Some s => addr_eqb s a && addr_eqb zero_addr cur | None => false end then rs_fee r else 0) + in_from a cur (t_inputs t)
      <= bal0 bal a cur.
Proof.
  intros n bk t bal r w B F V RF a cur. pose proof (validate_ok n bk B F t bal r w V) as X.
  pose proof (ex_bal _ _ _ _ _ _ X RF a cur) as A. destruct (t_sender t); exact A.
Qed.
Print Assumptions C27_balances_suffice.
Example C27_case : exists r w, validate (node0 code_all 1000000) bk0 (tx0 500000 10 None) balances0 = VDone r w /\ rs_fee r = 110382 /\
  20000 * 2048 / 1024 = 40000 /\ bal0 balances0 aS zero_addr = 1000000.
Proof. eexists. eexists. split; [vm_compute; reflexivity|]. split; [reflexivity|]. split; vm_compute; reflexivity. Qed.

(** ** C28.  A transaction that failed takes nothing but its fee, from the sender, and gives nothing; its changes of storage and
    contract balances are not committed. *)
Theorem C28_failed_costs_only_its_fee : forall n bk t bal r w,
  backend_ok bk -> 0 < n_fee_exec n -> validate n bk t bal = VDone r w -> rs_fail r = true ->
  w = None /\ block_outputs t r = [] /\
  exists sender, t_sender t = Some sender /\ block_inputs t r = [mk_txin sender zero_addr (rs_fee r) None false 0].
Proof.
  intros n bk t bal r w B F V RF. pose proof (validate_ok n bk B F t bal r w V) as X.
  split; [now apply (ex_fail _ _ _ _ _ _ X)|]. unfold block_outputs, block_inputs. rewrite RF. split; auto.
  destruct (ex_fee _ _ _ _ _ _ X) as (s & f & E1 & _). exists s. rewrite E1. auto.
Qed.
Print Assumptions C28_failed_costs_only_its_fee.
(** and one that did not fail is committed *)
Theorem C28_succeeded_is_committed : forall n bk t bal r w,
  backend_ok bk -> 0 < n_fee_exec n -> validate n bk t bal = VDone r w -> rs_fail r = false -> w <> None.
Proof.
  intros n bk t bal r w B F V RF E. pose proof (validate_ok n bk B F t bal r w V) as X. apply (ex_fail _ _ _ _ _ _ X) in E. congruence.
Qed.
Print Assumptions C28_succeeded_is_committed.
Example C28_case : exists r, validate (node0 code_all 1000000) bk0 (tx0 70000 10 None) balances0 = VDone r None /\ rs_fail r = true /\ rs_fee r = 70000.
Proof. eexists. split; [vm_compute; reflexivity|]. split; reflexivity. Qed.

(** ** C59.  Nothing is taken without the owner's solution: the key of the sender accepts the first solution; every input of a transaction that
    succeeds has a solution that is accepted by the key of its address or, when it is marked so, by the contract at that address, which is not executable;
    what is drawn from contracts is drawn from executable contracts that the transaction has locked. *)
Theorem C59_inputs_are_authorised : forall n bk t bal r w,
  backend_ok bk -> 0 < n_fee_exec n -> validate n bk t bal = VDone r w ->
  (exists sender, t_sender t = Some sender /\ t_key t sender 0 = Accepted /\ 0 < t_nsol t) /\
  (rs_fail r = false -> forall i, In i (t_inputs t) -> ti_sol i < t_nsol t /\
     if ti_exec i then (exists k, n_contract n (ti_address i) = Some k /\ k_exec k = None) /\ t_sol t (ti_address i) (ti_sol i) = Accepted
     else t_key t (ti_address i) (ti_sol i) = Accepted) /\
  (forall c cur, active n t c = false -> in_from c cur (rs_inputs r) = 0).
Proof.
  intros n bk t bal r w B F V. pose proof (validate_ok n bk B F t bal r w V) as X. split; [|split].
  - destruct (ex_fee _ _ _ _ _ _ X) as (s & f & E1 & _ & _ & _ & E2 & E3). eauto.
  - intros RF i HI. pose proof (ex_solved _ _ _ _ _ _ X RF) as S. rewrite Forall_forall in S. destruct (S i HI) as (S1 & S2). split; auto.
  - exact (ex_locked _ _ _ _ _ _ X).
Qed.
Print Assumptions C59_inputs_are_authorised.
(** without the other owner's solution the transaction is not even charged a fee *)
Example C59_case : let t := tx0 500000 10 None in
  validate (node0 code_all 1000000) bk0
    (mk_tx true (t_id t) 1 100 2048 500000 (Some aS) (t_inputs t) (t_outputs t) None (t_ops t) 20000 2
           (fun a i => if addr_eqb a aS && (i =? 0) then Accepted else Invalid) (fun _ _ => Refused) None) balances0 = VStatic.
Proof. vm_compute. reflexivity. Qed.

(** ** C60.  Validating a transaction ends, whatever its contracts do: the model's bound on nested calls and on instructions is never met. *)
Theorem C60_validation_ends : forall n bk t bal, backend_ok bk -> 0 < n_fee_exec n -> validate n bk t bal <> VFuel.
Proof. intros n bk t bal B F. exact (validate_ends n bk B F t bal). Qed.
Print Assumptions C60_validation_ends.
(** an endless loop *)
Example C60_case : result_of (validate (node0 [mk_instr 0x04 0 0 0 0 0] 1000000) bk0 (tx0 70000 10 None) balances0)
  = Some (mk_result true 35000 70000 [] []).
Proof. vm_compute. reflexivity. Qed.
