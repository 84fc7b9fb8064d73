(** Concrete programs: cases that meet the hypotheses of ExecProps, and programs that break C23 and C51-C55 *)
Require Import List Arith NArith ZArith Bool Lia.
From Verif Require Import BytesLib OrdLib VarModel InstrModel EngineModel EngineSpec ExecModel ExecSpec EngineProofs EngineUpper ExecProofs ExecFacts ExecProps.
Import ListNotations.
Open Scope N_scope.

Definition ext0 := mk_ext (fun _ => repeat 7 32) (fun _ _ _ => Some true) (fun _ _ => []) (fun _ _ => 0) (fun b => b) (fun b => b)
                          (fun b => b) (fun b => Some b).
Definition aA := repeat 1 32.
Definition aB := repeat 2 32.
Definition cur0 := repeat 3 32.
(** in storage: contract A has a map at [MEM_STATIC + 1], whose entry for the constant 1 is 7, and a balance of 100 *)
Definition bk0 := mk_backend
  (fun c a => if addr_eqb c aA && (a =? MEM_STATIC + 1) then Some (mk_svar 0 no_fl (VMap (MEM_STATIC + 1))) else None)
  (fun c a k => if addr_eqb c aA && (a =? MEM_STATIC + 1) && (k =? 1) then Some (mk_svar 0 no_fl (VUint 7)) else None)
  (fun c v => 0)
  (fun c cur => if addr_eqb c aA && addr_eqb cur cur0 then Some 100 else None).
Definition w0 := mk_world ram_empty [] [].
(** contract A with method "m"; contract B with method "m", const or not; both are locked for the transaction *)
Definition env0 (code_a : list instr) (const_a : list val) (code_b : list instr) (const_b : list val) (b_is_const : bool) :=
  mk_env bk0 ext0
    (fun a => if addr_eqb a aA then Some (mk_contract (Some (aA, [([66], aB)])) (fun _ => TNull))
              else if addr_eqb a aB then Some (mk_contract (Some (aB, [])) (fun _ => TNull)) else None)
    (fun a => if addr_eqb a aA then Some (mk_binary (Some const_a) (Some code_a) [([109], mk_method false false true 0)])
              else if addr_eqb a aB then Some (mk_binary (Some const_b) (Some code_b) [([109], mk_method false b_is_const true 0)])
              else None)
    (fun _ => 2000) 10000 true [109] 77 (repeat 9 32) 1 None (fun a => addr_eqb a aA || addr_eqb a aB).
Definition call0 E deposit := exec_call E 30 (aA, [([66], aB)]) aA None deposit [109] [] false (engine_new aA 1 200000 false w0).
Lemma bk0_ok : backend_ok bk0.
Proof.
  split.
  - intros c a v H. cbn [bk0 bk_read] in H. destruct (N.eqb_spec a (MEM_STATIC + 1)) as [->|NE]; [|rewrite andb_false_r in H; discriminate].
    destruct (addr_eqb c aA); [|discriminate]. cbn [andb] in H. injection H as <-. reflexivity.
  - intros c a k v H. cbn [bk0 bk_entry] in H. destruct (addr_eqb c aA && (a =? MEM_STATIC + 1) && (k =? 1)); [|discriminate].
    injection H as <-. exact Logic.I.
Qed.
Lemma ram_empty_ok : ram_ok ram_empty.
Proof. split; intros; discriminate. Qed.
Definition RET := mk_instr 0x08 0 0 0 0 0.
Definition static_of (r : res unit) (a : N) : option (option val) :=
  match r with Ok _ s => Some (option_map sv_val (cache_read bk0 (s_ram s) aA a)) | _ => None end.

(** C21, C22, C24, C56, C57: a program that adds with overflow checking, stores the result, sends 30 of 105, calls B *)
Definition code_all := [mk_instr 0x20 32 (MEM_STATIC + 2) 3 3 0; mk_instr 0xC1 0 2 3 1 0; mk_instr 0xC5 0 4 5 10 0;
                        mk_instr 0x02 0 (MEM_STATIC + 3) (MEM_STACK + 10) 0 0; RET].
Definition const_all := [VNil; VBinary cur0; VBinary aB; VUint 30; VString [66]; VString [109]].
Definition code_ret5 := [mk_instr 0x02 0 MEM_STACK 1 0 0; RET].
Definition env_all := env0 code_all const_all code_ret5 [VNil; VUint 5] true.
Example call_hypotheses : backend_ok (e_backend env_all) /\ 0 < e_fee_exec env_all /\ ram_ok (w_ram w0) /\
  200000 < e_fee_exec env_all * N.of_nat 30.
Proof. split; [exact bk0_ok|]. split; [reflexivity|]. split; [exact ram_empty_ok|reflexivity]. Qed.
Definition ok_state (r : res unit) : st := match r with Ok _ s | Throw s | Undefined s => s | Fuel => engine_new [] 0 0 false w0 end.
Example call_succeeds : let r := call0 env_all (Some (cur0, 5)) in let s := ok_state r in
  r = Ok tt s /\ s_gas s <= 200000 /\
  option_map sv_val (cache_read bk0 (s_ram s) aA (MEM_STATIC + 2)) = Some (VUint 60) /\
  option_map sv_val (cache_read bk0 (s_ram s) aA (MEM_STATIC + 3)) = Some (VUint 5) /\
  balance_of bk0 (s_world s) aA cur0 = 75 /\ sent w0 (s_world s) aA cur0 = 30 /\
  w_outs (s_world s) = [mk_txout aB cur0 30 None].
Proof. vm_compute. repeat split; auto; discriminate. Qed.
(** the hypotheses of the theorems about single instructions, at the first instruction of that program *)
Definition prepared := ok_state ((start_setup env_all aA None ;;; add_deposit env_all (Some (cur0, 5)) ;;;
  m <- prepare env_all aA [109] false ;; op_setup env_all (Some (cur0, 5)) []) (engine_new aA 1 200000 false w0)).
Definition begun := ok_state (begin 0 prepared).
Example instruction_hypotheses :
  mints_ok prepared /\ st_ok prepared /\ begin 0 prepared = Ok tt begun /\
  s_limit prepared < e_fee_exec env_all * N.of_nat 30 /\
  visible bk0 begun (MEM_EXTERN + EXTERN_ADDRESS) = Some (VBinary aA) /\
  visible bk0 begun (MEM_EXTERN + EXTERN_DEPOSIT) = Some (VArray (MEM_EXTERN + EXTERN_DEPOSIT) 2) /\
  visible_at begun (MEM_EXTERN + EXTERN_DEPOSIT) 1 = Some (VUint 5).
Proof.
  split; [constructor|]. split.
  - split; [split|split].
    + intros a o. vm_compute. intros H. repeat (destruct H as [H|H]; [injection H as <- <-; vm_compute; auto|]). destruct H.
    + intros a k o. vm_compute. intros H. repeat (destruct H as [H|H]; [injection H as <- <- <-; vm_compute; auto|]). destruct H.
    + intros c a v H. vm_compute in H. discriminate.
    + intros c a k v H. vm_compute in H. discriminate.
  - vm_compute. auto.
Qed.
Example arithmetic_hypotheses : let i := mk_instr 0x20 32 (MEM_STATIC + 2) 3 3 0 in
  exec bk0 ext0 (remote_call env_all 30 []) (read_contract env_all) i begun
    = Ok tt (ok_state (exec bk0 ext0 (remote_call env_all 30 []) (read_contract env_all) i begun)) /\
  opflag i CATCH_OVERFLOW = true /\ 1 <= s_version begun /\ In (i_code i) [0x20; 0x21; 0x22; 0x23; 0x24].
Proof. intros i. split; [vm_compute; reflexivity|]. split; [reflexivity|]. split; [vm_compute; discriminate|]. simpl. auto. Qed.

(** C23: POP_BACK on the deposit leaves a deposit of one element. *)
Definition code_pop := [mk_instr 0x86 0 (MEM_STACK + 1) (MEM_EXTERN + EXTERN_DEPOSIT) 0 0; RET].
Theorem C23_deposit_unchanged_refuted : exists E s s',
  backend_ok (e_backend E) /\ 0 < e_fee_exec E /\
  steps (step (e_backend E) (e_ext E) (remote_call E 30 []) (read_contract E)) 1 s s' /\
  visible (e_backend E) s (MEM_EXTERN + EXTERN_DEPOSIT) = Some (VArray (MEM_EXTERN + EXTERN_DEPOSIT) 2) /\
  visible (e_backend E) s' (MEM_EXTERN + EXTERN_DEPOSIT) = Some (VArray (MEM_EXTERN + EXTERN_DEPOSIT) 1).
Proof.
  pose (E := env0 code_pop const_all [] [] true).
  pose (s := ok_state (begin 0 (ok_state ((start_setup E aA None ;;; add_deposit E (Some (cur0, 5)) ;;;
    m <- prepare E aA [109] false ;; op_setup E (Some (cur0, 5)) []) (engine_new aA 1 200000 false w0))))).
  exists E, s, (ok_state (step bk0 ext0 (remote_call E 30 []) (read_contract E) s)).
  split; [exact bk0_ok|]. split; [reflexivity|]. split.
  - econstructor; [|constructor]. vm_compute. reflexivity.
  - split; vm_compute; reflexivity.
Qed.
Print Assumptions C23_deposit_unchanged_refuted.

(** C51: two programs that make the engine use an object it has destroyed: COPY of what the destination refers to,
    and POP_BACK into the variable that refers to the array. *)
Definition code_copy := [mk_instr 0x03 0 (MEM_STACK + 1) 1 0 0; mk_instr 0x85 1 (MEM_STACK + 1) 2 0 0;
                         mk_instr 0x02 2 (MEM_STACK + 1) (MEM_STACK + 1) 0 0; RET].
Definition code_popref := [mk_instr 0x03 0 (MEM_STACK + 1) 1 0 0; mk_instr 0x85 1 (MEM_STACK + 1) 2 0 0;
                           mk_instr 0x86 2 (MEM_STACK + 1) (MEM_STACK + 1) 0 0; RET].
Theorem C51_defined_behaviour_refuted : forall code, code = code_copy \/ code = code_popref ->
  exists s, call0 (env0 code [VNil; VArray 0 0; VUint 5] [] [] true) None = Undefined s.
Proof. intros code [->| ->]; eexists; vm_compute; reflexivity. Qed.
Print Assumptions C51_defined_behaviour_refuted.

(** C52: an entry that is in storage is still there after a call that overwrote and then erased it. *)
Definition code_erase := [mk_instr 0x84 0 (MEM_STATIC + 1) 1 0 0; RET].
Definition code_set_erase := [mk_instr 0x83 0 (MEM_STATIC + 1) 1 2 0; mk_instr 0x84 0 (MEM_STATIC + 1) 1 0 0; RET].
Definition const_erase := [VNil; VString [107]; VUint 8].
Theorem C52_erase_is_permanent_refuted :
  (exists s, call0 (env0 code_set_erase const_erase [] [] true) None = Ok tt s /\
     cache_entry bk0 (s_ram s) aA (MEM_STATIC + 1) 1 = Some (mk_svar 0 no_fl (VUint 7))) /\
  (exists s v, call0 (env0 code_erase const_erase [] [] true) None = Ok tt s /\
     cache_entry bk0 (s_ram s) aA (MEM_STATIC + 1) 1 = Some v /\ f_deleted (sv_fl v) = true).
Proof.
  split.
  - exists (ok_state (call0 (env0 code_set_erase const_erase [] [] true) None)). split; vm_compute; reflexivity.
  - exists (ok_state (call0 (env0 code_erase const_erase [] [] true) None)). eexists. split; [|split]; vm_compute; reflexivity.
Qed.
Print Assumptions C52_erase_is_permanent_refuted.

(** C53: the value that a method returns arrives when the method is const, and is lost when it is not. *)
Definition code_rcall := [mk_instr 0xC5 0 1 2 10 0; mk_instr 0x02 0 (MEM_STATIC + 2) (MEM_STACK + 10) 0 0; RET].
Definition const_rcall := [VNil; VString [66]; VString [109]].
Theorem C53_return_value_refuted :
  static_of (call0 (env0 code_rcall const_rcall code_ret5 [VNil; VUint 5] true) None) (MEM_STATIC + 2) = Some (Some (VUint 5)) /\
  (exists s, call0 (env0 code_rcall const_rcall code_ret5 [VNil; VUint 5] false) None = Throw s).
Proof. split; [|eexists]; vm_compute; reflexivity. Qed.
Print Assumptions C53_return_value_refuted.

(** C54: B runs until all gas is gone (more than 180000), the transaction is charged less than 15000. *)
Definition code_loop := [mk_instr 0x04 0 0 0 0 0].
Theorem C54_gas_of_failed_call_refuted : let E := env0 code_rcall const_rcall code_loop [VNil] false in
  (exists s, call0 E None = Throw s /\ s_gas s < 15000) /\
  (exists s, exec_call E 30 (aB, []) aB None None [109] [] false (engine_new aB 1 180000 false w0) = Throw s /\ 180000 < s_gas s).
Proof.
  intros E. split.
  - exists (ok_state (call0 E None)). split; vm_compute; reflexivity.
  - exists (ok_state (exec_call E 30 (aB, []) aB None None [109] [] false (engine_new aB 1 180000 false w0))). split; vm_compute; reflexivity.
Qed.
Print Assumptions C54_gas_of_failed_call_refuted.

(** C55: two nested calls that move the stack pointer past the end of the stack; returning from them clears memory behind it. *)
Definition code_stack := [mk_instr 0x02 0 (MEM_STATIC + 2) 2 0 0; mk_instr 0x07 0 3 0x3FFFFFFF 0 0; RET;
                          mk_instr 0x07 0 5 0x3FFFFFFF 0 0; RET; RET].
Theorem C55_stack_bounds_refuted : exists s, call0 (env0 code_stack const_erase [] [] true) None = Undefined s.
Proof. eexists. vm_compute. reflexivity. Qed.
Print Assumptions C55_stack_bounds_refuted.
(** C56_only_executables_act *)
Example not_executable : runs env_all cur0 = false /\ cur0 <> aA /\ runs env_all aB = true.
Proof. split; [reflexivity|]. split; [discriminate|reflexivity]. Qed.
