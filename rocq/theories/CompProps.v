(** C82, C83: what contract source means.
    [CompSpec] says how a program is written down ([source_of]) and what it does ([body]). *)
Require Import List Arith NArith ZArith Bool String Lia.
From Verif Require Import BytesLib OrdLib VarModel InstrModel EngineModel EngineProofs EngineUpper ExecModel ExecProofs ExecFacts ExecProps ExecCases
  CompModel CompSpec CompFull CompVm CompLoad.
Import List ListNotations.
Open Scope N_scope.

(** C82: expressions are read in the customary order: a program compiles to the same binary as the one with parentheses around
    every operand.  ([text] is the source text that the failure message of an assert quotes; only that may differ.)
    [plain_prog] asks for expressions that do not put an operator on bits next to one on truth values without parentheses. *)
Theorem C82_customary_order_partial : forall fl text fuel fuel' p bin s bin' s',
  plain_prog p -> (forall e, text (flat (full e)) = text (flat e)) ->
  compile fl text fuel (source_of p) = COk bin s ->
  compile fl text fuel' (source_of (full_prog p)) = COk bin' s' ->
  bin' = bin.
Proof. exact parentheses_idle. Qed.
Print Assumptions C82_customary_order_partial.

(** C83: a contract that was compiled, loaded and called through the API does what its source says: the call ends with the
    value the source defines (unless it runs out of gas first), and fails where the source fails. *)
Theorem C83_compiled_contract_does_what_it_says_partial : forall E fl text fuel p bin cs g vs m address user version limit ro w n,
  backend_ok (e_backend E) -> ram_ok (w_ram w) ->
  compile fl text fuel (source_of p) = COk bin cs -> plain_prog p ->
  N.of_nat (List.length (b_consts bin)) < MEM_EXTERN -> Forall (fun v => val_bytes v <= MAX_VALUE_BYTES) (b_consts bin) ->
  N.of_nat (List.length (b_code bin)) <= 524288 -> (forall f, In f (sp_fns p) -> N.of_nat (List.length (sf_args f)) < 262144) ->
  In g (sp_fns p) -> lookup_var (sf_name g) (b_methods bin) = Some (m_entry m) ->
  List.length vs = List.length (sf_args g) -> Forall (fun v => small v = true) vs -> 1 <= version ->
  N.of_nat (List.length address) <= MAX_VALUE_BYTES -> N.of_nat (List.length (e_network E)) <= MAX_VALUE_BYTES ->
  match user with Some u => N.of_nat (List.length u) <= MAX_VALUE_BYTES | None => True end ->
  let out := call_contract E (ExecModel.mk_binary (Some (b_consts bin)) (Some (b_code bin)) []) m address user None (map vnt_of vs)
               (engine_new address version limit ro w) in
  match CompSpec.body (fl_catch fl) p n 999 g vs with
  | Val v => exists s, (out = Ok tt s /\ holds s MEM_STACK (val_of v)) \/ (out = Throw s /\ s_limit s < s_gas s)
  | Fail => exists s, out = Throw s
  | Open => True
  end.
Proof. exact compiled_call. Qed.
Print Assumptions C83_compiled_contract_does_what_it_says_partial.

(** *** A program that meets the hypotheses *)
Open Scope string_scope. Open Scope N_scope.
Definition fl0 := mk_flags true true.
Definition scaled := mk_func "scaled" [("x", None); ("by", Some (Num 3))] true
 [Return (Some (Bin ODiv (Bin OMul (Var "x") (Var "by")) (Var "SCALE")))].
Definition total := mk_func "total" [("n", None)] true
 [Assert (Bin OLe (Var "n") (Lit (Num 100)));
  Let "s" (Some (Lit (Num 0)));
  For [Let "i" (Some (Lit (Num 1)))] (Bin OLe (Var "i") (Var "n")) [Step true false "i"]
   (Block [If (Bin OEq (Bin OMod (Var "i") (Lit (Num 2))) (Lit (Num 0)))
     (Block [Update OAdd "s" (Call "scaled" [Var "i"])])
     (Some (Block [Update OAdd "s" (Call "scaled" [Var "i"; Lit (Num 8)])]))]);
  Return (Some (Pick true (Bin OAdd (Bin OMul (Var "s") (Lit (Num 2))) (Lit (Num 1))) [Lit (Num 1000)]))].
Definition prog0 := mk_prog [("SCALE", Num 4)] [total; scaled].
Definition bin_of (p : prog) : CompModel.binary :=
  match compile fl0 (fun _ => []) 100 (source_of p) with COk b _ => b | _ => mk_binary [] [] [] end.
Definition entry_of (p : prog) (f : string) : N := match lookup_var f (b_methods (bin_of p)) with Some a => a | None => 0 end.
Definition api (p : prog) (f : string) (vs : list value) : EngineModel.res unit :=
  call_contract env_all (ExecModel.mk_binary (Some (b_consts (bin_of p))) (Some (b_code (bin_of p))) []) (mk_method false true true (entry_of p f))
    aA None None (map vnt_of vs) (engine_new aA 1 200000 true w0).
(** what a call returns *)
Definition returned (r : EngineModel.res unit) : option (option val) :=
  match r with Ok _ s => Some (option_map o_val (cell s (LMem MEM_STACK))) | Throw _ => Some None | _ => None end.
Lemma sizes_ok l : forallb (fun v => val_bytes v <=? MAX_VALUE_BYTES) l = true -> Forall (fun v => val_bytes v <= MAX_VALUE_BYTES) l.
Proof. intros H. apply Forall_forall. intros v Hv. rewrite forallb_forall in H. now apply N.leb_le, H. Qed.
Example C82_case : plain_prog prog0 /\
  exists s s', compile fl0 (fun _ => []) 100 (source_of prog0) = COk (bin_of prog0) s /\
               compile fl0 (fun _ => []) 100 (source_of (full_prog prog0)) = COk (bin_of prog0) s' /\
               source_of prog0 <> source_of (full_prog prog0) /\ 20 < N.of_nat (List.length (b_code (bin_of prog0))).
Proof.
  split.
  - split; [reflexivity|]. intros f [<-|[<-|[]]]; exists []; reflexivity.
  - eexists _, _. split; [vm_compute; reflexivity|]. split; [vm_compute; reflexivity|]. split; [vm_compute; discriminate|vm_compute; reflexivity].
Qed.
Example C83_case : plain_prog prog0 /\ (exists s, compile fl0 (fun _ => []) 100 (source_of prog0) = COk (bin_of prog0) s) /\
  N.of_nat (List.length (b_consts (bin_of prog0))) < MEM_EXTERN /\ Forall (fun v => val_bytes v <= MAX_VALUE_BYTES) (b_consts (bin_of prog0)) /\
  N.of_nat (List.length (b_code (bin_of prog0))) <= 524288 /\
  lookup_var "total" (b_methods (bin_of prog0)) = Some (entry_of prog0 "total") /\
  CompSpec.body true prog0 100 999 total [Num 5] = Val (Num 45) /\ returned (api prog0 "total" [Num 5]) = Some (Some (VUint 45)) /\
  CompSpec.body true prog0 100 999 total [Num 101] = Fail /\ returned (api prog0 "total" [Num 101]) = Some None.
Proof.
  split; [apply C82_case|]. split; [eexists; vm_compute; reflexivity|]. split; [vm_compute; reflexivity|].
  split; [apply sizes_ok; vm_compute; reflexivity|]. split; [vm_compute; discriminate|].
  repeat split; vm_compute; reflexivity.
Qed.

(** *** What does not hold *)
Definition one_fn (name : string) (args : list (string * option value)) (l : list stmt) := mk_prog [] [mk_func name args true l].
(** [a | b && c]: by the customary order [(a | b) && c]; the compiler ranks [|] with [||] and reads [a | (b && c)] *)
Definition mixed := Bin OAnd (Bin OBitOr (Var "a") (Var "b")) (Var "c").
Definition prog_mixed := one_fn "f" [("a", None); ("b", None); ("c", None)] [Return (Some mixed)].
Theorem C82_bits_and_truth_refuted : exists g, In g (sp_fns prog_mixed) /\ customary mixed = true /\
  CompSpec.body true prog_mixed 100 999 g [Num 4; Num 0; Num 1] = Val (CompSpec.Bool true) /\
  returned (api prog_mixed "f" [Num 4; Num 0; Num 1]) = Some None /\
  returned (api (full_prog prog_mixed) "f" [Num 4; Num 0; Num 1]) = Some (Some VTrue).
Proof. eexists. split; [left; reflexivity|]. repeat split; vm_compute; reflexivity. Qed.
Print Assumptions C82_bits_and_truth_refuted.
(** [f(c) { if(c) { return 1; } }  g() { return 2; }]: f(false) should return null, but runs on into g *)
Definition prog_ret := mk_prog [] [mk_func "f" [("c", None)] true [If (Var "c") (Block [Return (Some (Lit (Num 1)))]) None];
                                   mk_func "g" [] true [Return (Some (Lit (Num 2)))]].
Theorem C83_missing_return_refuted : exists g, In g (sp_fns prog_ret) /\
  CompSpec.body true prog_ret 100 999 g [CompSpec.Bool false] = Val Null /\ returned (api prog_ret "f" [CompSpec.Bool false]) = Some (Some (VUint 2)).
Proof. eexists. split; [left; reflexivity|]. repeat split; vm_compute; reflexivity. Qed.
Print Assumptions C83_missing_return_refuted.
(** [const x = a + 1; x += 1; return x;] should be refused or fail *)
Definition prog_const := one_fn "f" [("a", None)] [Const "x" (Bin OAdd (Var "a") (Lit (Num 1))); Update OAdd "x" (Lit (Num 1)); Return (Some (Var "x"))].
Theorem C83_constant_changed_refuted : exists g, In g (sp_fns prog_const) /\
  CompSpec.body true prog_const 100 999 g [Num 5] = Fail /\ returned (api prog_const "f" [Num 5]) = Some (Some (VUint 7)).
Proof. eexists. split; [left; reflexivity|]. repeat split; vm_compute; reflexivity. Qed.
Print Assumptions C83_constant_changed_refuted.
(** [f(a = 5) { return a; }]: a call from outside without arguments fails, one from inside returns 5 *)
Definition prog_dflt := mk_prog [] [mk_func "f" [("a", Some (Num 5))] true [Return (Some (Var "a"))];
                                    mk_func "g" [] true [Return (Some (Call "f" []))]].
Theorem C83_default_argument_refuted : exists g, In g (sp_fns prog_dflt) /\
  CompSpec.body true prog_dflt 100 999 g [] = Val (Num 5) /\ returned (api prog_dflt "f" []) = Some None /\
  returned (api prog_dflt "g" []) = Some (Some (VUint 5)).
Proof. eexists. split; [left; reflexivity|]. repeat split; vm_compute; reflexivity. Qed.
Print Assumptions C83_default_argument_refuted.
(** source outside of [CompSpec]: as parse trees *)
Definition raw (args : list (string * option val)) (l : list tree) : CompModel.binary :=
  match compile fl0 (fun _ => []) 100 (mk_program [] [mk_fn "f" args false true (TScope l)]) with COk b _ => b | _ => mk_binary [] [] [] end.
Definition api_raw (b : CompModel.binary) (vs : list value) : EngineModel.res unit :=
  call_contract env_all (ExecModel.mk_binary (Some (b_consts b)) (Some (b_code b)) []) (mk_method false true true 1)
    aA None None (map vnt_of vs) (engine_new aA 1 200000 true w0).
(** [let a = 0; let b = 0; a = b = 1; return b;] returns 0: read as [(a = b) = 1] *)
Theorem C82_chained_assignment_refuted :
  returned (api_raw (raw [] [TVar QLet "a" (Some [NConst (VUint 0)]); TVar QLet "b" (Some [NConst (VUint 0)]);
                             TExpr [NId "a"; NOp "="; NId "b"; NOp "="; NConst (VUint 1)]; TExpr [NOp "return"; NId "b"]]) []) = Some (Some (VUint 0)).
Proof. vm_compute. reflexivity. Qed.
Print Assumptions C82_chained_assignment_refuted.
(** [let x = 1; return x + x++;] returns 3: the left operand is read after the right one was computed *)
Theorem C83_operand_order_refuted :
  returned (api_raw (raw [] [TVar QLet "x" (Some [NConst (VUint 1)]); TExpr [NOp "return"; NId "x"; NOp "+"; NId "x"; NOp "++"]]) []) = Some (Some (VUint 3)).
Proof. vm_compute. reflexivity. Qed.
Print Assumptions C83_operand_order_refuted.
(** [assert(x, min(a, 2)); return 7;]: the jump over the failure goes to the failure *)
Theorem C83_assert_message_refuted : forall m, m = [NId "min"; NSub [[NId "a"]; [NConst (VUint 2)]]] ->
  returned (api_raw (raw [("x", None); ("a", None)] [TExpr [NId "assert"; NSub [[NId "x"]; m]]; TExpr [NOp "return"; NConst (VUint 7)]])
                    [CompSpec.Bool true; Num 1]) = Some None /\
  returned (api_raw (raw [("x", None); ("a", None)] [TExpr [NId "assert"; NSub [[NId "x"]; [NId "a"]]]; TExpr [NOp "return"; NConst (VUint 7)]])
                    [CompSpec.Bool true; Num 1]) = Some (Some (VUint 7)).
Proof. intros m ->. split; vm_compute; reflexivity. Qed.
Print Assumptions C83_assert_message_refuted.
