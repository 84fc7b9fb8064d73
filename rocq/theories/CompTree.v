(** The compiler, run on the parse tree of a statement, makes the code of [CompGen.gstmt]. *)
Require Import List Arith NArith ZArith Bool String Lia.
From Verif Require Import BytesLib VarModel InstrModel EngineModel CompModel CompSpec CompGen CompParse.
Import List ListNotations.
Open Scope N_scope.

Section STMTIND.
  Variable P : stmt -> Prop.
  Hypothesis HLet : forall x e, P (Let x e).
  Hypothesis HConst : forall x e, P (Const x e).
  Hypothesis HAssign : forall x e, P (Assign x e).
  Hypothesis HUpdate : forall o x e, P (Update o x e).
  Hypothesis HStep : forall u q x, P (Step u q x).
  Hypothesis HDo : forall e, P (Do e).
  Hypothesis HAssert : forall e, P (Assert e).
  Hypothesis HReturn : forall e, P (Return e).
  Hypothesis HBlock : forall l, Forall P l -> P (Block l).
  Hypothesis HIf : forall c s e, P s -> (forall t, e = Some t -> P t) -> P (If c s e).
  Hypothesis HWhile : forall c s, P s -> P (While c s).
  Hypothesis HFor : forall i c q s, Forall P i -> Forall P q -> P s -> P (For i c q s).
  Fixpoint stmt_ind2 (s : stmt) : P s :=
    let all := fix all (l : list stmt) : Forall P l :=
      match l with [] => Forall_nil P | s :: l => Forall_cons s (stmt_ind2 s) (all l) end in
    match s with
    | Let x e => HLet x e
    | Const x e => HConst x e
    | Assign x e => HAssign x e
    | Update o x e => HUpdate o x e
    | Step u q x => HStep u q x
    | Do e => HDo e
    | Assert e => HAssert e
    | Return e => HReturn e
    | Block l => HBlock l (all l)
    | If c s e => HIf c s e (stmt_ind2 s)
        (match e return forall t, e = Some t -> P t with
         | Some u => fun t H => eq_ind u P (stmt_ind2 u) t (f_equal (fun o => match o with Some v => v | None => u end) H)
         | None => fun t H => False_ind _ (eq_ind None (fun o => match o with None => True | _ => False end) I _ H)
         end)
    | While c s => HWhile c s (stmt_ind2 s)
    | For i c q s => HFor i c q s (all i) (all q) (stmt_ind2 s)
    end.
End STMTIND.

Lemma update_here {A} (f : A -> A) l x r : update (List.length l) f (l ++ x :: r) = l ++ f x :: r.
Proof. induction l as [|y l IH]; cbn; [reflexivity|now rewrite IH]. Qed.

Section TREE.
  Variable fl : flags.
  Variable text : list node -> bytes.
  Variable fns : list fn.
  Variable globals : list (ident * variable).
  Variable cc : bool.
  Notation expr := (CompModel.expr fl text fns globals cc).
  Notation tree_code := (CompModel.tree_code fl text fns globals cc).
  Notation gexp := (CompGen.gexp fl fns).
  Notation gstmt := (CompGen.gstmt fl text fns).
  Notation scp := (CompParse.scp globals).
  Notation sub := (CompModel.sub fl text fns globals cc).
  Variable fuel : nat.

  Fixpoint trees (l : list tree) : C unit := match l with [] => cret tt | t :: l => do! tree_code fuel t in trees l end.
  Lemma tree_scope l : tree_code fuel (TScope l) = (do! push_scope in do! trees l in pop_scope).
  Proof. reflexivity. Qed.
  Lemma tree_for init c post body : tree_code fuel (TFor init c post body) =
    (do! push_scope in
      do! trees init in
      let! begin := here in
      let! cond := sub_get fl text fns globals cc fuel c in
      let! jump := here in
      do! emit OP_JUMPN 0 (2 ^ 32 - 1) cond 0 in
      do! tree_code fuel body in
      do! trees post in
      do! emit OP_JUMP 0 (N.of_nat begin) 0 0 in
      let! pos := here in
      do! patch jump (N.of_nat pos) in
      pop_scope).
  Proof. reflexivity. Qed.
  Lemma flat_cons e : exists n ns, flat e = n :: ns.
  Proof. induction e using exp_ind2; cbn [flat]; eauto. destruct IHe1 as (n & ns & ->). cbn. eauto. Qed.
  Lemma flat_const e v : flat e = [NConst v] -> exists w, e = Lit w.
  Proof.
    destruct e; cbn [flat]; try discriminate; eauto. intros H. exfalso.
    destruct (flat_cons e1) as (n & ns & E). destruct (flat_cons e2) as (n2 & ns2 & E2). rewrite E, E2 in H. destruct ns; discriminate H.
  Qed.
  Lemma tree_decl q x ns : (q = QLet \/ forall v, ns <> [NConst v]) ->
    tree_code fuel (TVar q x (Some ns)) =
    (let! a := new_addr in do! (let! r := sub fuel ns in copy (at_addr a) r) in
     add_variable x (mk_var (match q with QConst => true | QLet => false end) a)).
  Proof.
    intros [-> | H]; [reflexivity|]. destruct q; [reflexivity|]. destruct ns as [|[] [|]]; try reflexivity. now destruct (H v).
  Qed.

  Lemma sub_plain e cd off V fs K L r s' : plain_exp e = true ->
    sub fuel (flat e) (state cd off V fs K L) = COk r s' ->
    check_value r = true /\
    exists c off' K', gexp (scp V fs) e off K = Some (c, r_addr r, off', K') /\ s' = after cd c off' V fs K' L.
  Proof. intros P H. eapply parses_sub in H; eauto using parses_all. Qed.
  Lemma sub_get_plain e cd off V fs K L a s' : plain_exp e = true ->
    sub_get fl text fns globals cc fuel (flat e) (state cd off V fs K L) = COk a s' ->
    exists c off' K', gexp (scp V fs) e off K = Some (c, a, off', K') /\ s' = after cd c off' V fs K' L.
  Proof.
    intros P H. unfold sub_get in H. apply cbind_ok in H. destruct H as (r & s1 & H & H1). apply get_ok in H1. destruct H1 as (_ & -> & ->).
    apply sub_plain in H; auto. destruct H as (_ & H). exact H.
  Qed.
  Lemma here_state cd off V fs K L : here (state cd off V fs K L) = COk (List.length cd) (state cd off V fs K L).
  Proof. reflexivity. Qed.
  Lemma here_after cd c off V fs K L : here (after cd c off V fs K L) = COk (List.length cd + List.length c)%nat (after cd c off V fs K L).
  Proof. unfold here. cbn [after state c_code]. now rewrite app_length, map_length. Qed.
  Lemma add_variable_state x v cd off V fs K L u s' :
    add_variable x v (state cd off V fs K L) = COk u s' -> s' = state cd off ((x, v) :: V) fs K L.
  Proof. unfold add_variable. cbn [state c_frames f_vars]. destruct (lookup_var x V); [discriminate|]. intros H. now ok1 H. Qed.
  Lemma patch_after cd c i c2 a off V fs K L :
    patch (List.length cd + List.length c) a (after cd (c ++ (i, None) :: c2) off V fs K L) =
    COk tt (after cd (c ++ (set_a a i, None) :: c2) off V fs K L).
  Proof.
    unfold patch, after, state. cbn [c_code c_frames c_consts c_links]. rewrite !map_app. cbn [map fst].
    rewrite app_assoc.
    replace (List.length cd + List.length c)%nat with (List.length (cd ++ map fst c)) by now rewrite app_length, map_length.
    rewrite update_here, <- app_assoc, !links_at_app. reflexivity.
  Qed.
  Lemma patch_eq n a cd c l i r off V fs K L : c = l ++ (i, None) :: r -> n = (List.length cd + List.length l)%nat ->
    patch n a (after cd c off V fs K L) = COk tt (after cd (l ++ (set_a a i, None) :: r) off V fs K L).
  Proof. intros -> ->. apply patch_after. Qed.
  Lemma emit_more cd c op f a b d off V fs K L :
    emit op f a b d (after cd c off V fs K L) = COk tt (after cd (c ++ [ins op f a b d]) off V fs K L).
  Proof. unfold after at 1. rewrite emit_after, after_after. reflexivity. Qed.

  (** *** Statements that are expressions *)
  (** a name and an operator *)
  Lemma name_first n x ns s r rest' s' : expr n (NId x :: ns) None (-1) s = COk (r, rest') s' ->
    exists m, expr m ns (Some match find_variable globals s x with
               | Some v => mk_vref (v_isconst v) (v_addr v) None (Some x)
               | None => if is_function fns x then mk_vref false 0 (Some x) (Some x) else mk_vref false NO_ADDR None (Some x)
               end) (-1) s = COk (r, rest') s'.
  Proof.
    intros H. apply expr_node with (rank := 1%Z) in H; [|reflexivity|lia].
    destruct H as (m & out & rest1 & s1 & -> & H1 & H). cbn [one_node] in H1. ok2 H1. eauto.
  Qed.
  Lemma operand_all e rk n cd off V fs K L r rest' s' :
    plain_exp e = true -> (15 < rk)%Z ->
    expr n (flat e) None rk (state cd off V fs K L) = COk (r, rest') s' ->
    rest' = [] /\ result fl fns globals e cd off V fs K L r s'.
  Proof.
    intros P R H. rewrite <- (app_nil_r (flat e)) in H. apply operand in H; auto using parses_all; try lia; try exact I.
    destruct e as [v|x|e|e|o a b|e|q a l|f l]; cbn [rank_of]; try lia.
    destruct (rank_sym o) as (q & -> & ?). lia.
  Qed.
  Lemma sub_inv ns s r s' : sub fuel ns s = COk r s' -> expr fuel ns None (-1) s = COk (r, []) s'.
  Proof.
    unfold CompModel.sub, sub_with. intros H. apply cbind_ok in H. destruct H as ([r1 [|]] & s1 & H1 & H); [|discriminate].
    destruct (check_value r1); [|discriminate]. ok1 H. exact H1.
  Qed.
  Definition tree_ok (s : stmt) (cd : list instr) off V fs K L (s' : cst) : Prop :=
    exists c D off' K', gstmt s (scp V fs) off K (List.length cd) = Some (c, D, off', K') /\ s' = after cd c off' (D ++ V) fs K' L.

  Lemma assign_ok x e cd off V fs K L r s' : plain_exp e = true ->
    sub fuel (NId x :: NOp "=" :: flat e) (state cd off V fs K L) = COk r s' -> tree_ok (Assign x e) cd off V fs K L s'.
  Proof.
    intros P H. apply sub_inv in H. apply name_first in H. destruct H as (m & H).
    rewrite find_state in H. apply expr_node with (rank := 16%Z) in H; [|reflexivity|lia].
    destruct H as (m1 & out & rest1 & s1 & -> & H1 & H). cbn [one_node] in H1.
    destruct (flat_cons e) as (n0 & ns0 & Fe).
    set (l := match lookup_var x (scp V fs) with Some v => _ | None => _ end) in *.
    change (operator fl (expr m1) "=" 16 (Some l) (flat e)) with
      (match flat e with _ :: _ => if r_const l then cerr else
         let! (r, rest) := expr m1 (flat e) None 16%Z in let! out := copy l r in cret (out, rest) | [] => cerr end) in H1.
    rewrite Fe in H1. rewrite <- Fe in H1. destruct (r_const l) eqn:Rc; [discriminate|].
    apply cbind_ok in H1. destruct H1 as ([r1 rest2] & s2 & H1 & H2). cbv beta iota in H2.
    apply operand_all in H1; [|assumption|lia]. destruct H1 as (-> & R).
    apply cbind_ok in H2. destruct H2 as (o & s3 & H2 & H3). ok2 H3.
    destruct (check_value r1) eqn:Ck; [|unfold copy in H2; rewrite Ck in H2; discriminate].
    destruct (R Ck) as (c & off1 & K1 & G & ->). unfold after in H2. apply copy_state in H2. destruct H2 as (_ & Cl & _ & -> & ->).
    apply expr_stop in H; [|exact I]. destruct H as (_ & _ & ->).
    unfold l in *. destruct (lookup_var x (scp V fs)) as [v|] eqn:Lk.
    - cbn [r_addr r_const] in *. eexists _, [], _, _. cbn [CompGen.gstmt]. rewrite Lk, Rc, G. split; [reflexivity|]. apply after_after.
    - destruct (is_function fns x); discriminate Cl.
  Qed.
  Lemma operator_update o rec l ns : updatable o = true ->
    operator fl rec (sym o ++ "=") 16 l ns = simple_op fl rec (sym o ++ "=") (code_of o) true l 16 ns /\ op_rank (sym o ++ "=") = Some 16%Z.
  Proof. destruct o; try discriminate; split; reflexivity. Qed.
  Lemma update_ok o x e cd off V fs K L r s' : plain_exp e = true -> updatable o = true ->
    sub fuel (NId x :: NOp (sym o ++ "=") :: flat e) (state cd off V fs K L) = COk r s' -> tree_ok (Update o x e) cd off V fs K L s'.
  Proof.
    intros P U H. apply sub_inv in H. apply name_first in H. destruct H as (m & H).
    rewrite find_state in H. apply expr_node with (rank := 16%Z) in H; [|apply (operator_update o (expr 0) None [] U)|lia].
    destruct H as (m1 & out & rest1 & s1 & -> & H1 & H). cbn [one_node] in H1.
    destruct (flat_cons e) as (n0 & ns0 & Fe).
    set (l := match lookup_var x (scp V fs) with Some v => _ | None => _ end) in *.
    rewrite (proj1 (operator_update o (expr m1) (Some l) (flat e) U)) in H1. unfold simple_op in H1.
    rewrite Fe in H1. rewrite <- Fe in H1.
    apply cbind_ok in H1. destruct H1 as ([r1 rest2] & s2 & H1 & H2). cbv beta iota in H2.
    apply operand_all in H1; [|assumption|lia]. destruct H1 as (-> & R).
    apply cbind_ok in H2. destruct H2 as (rhs & s3 & H2 & H3). apply get_ok in H2. destruct H2 as (Ck & -> & ->).
    destruct (R Ck) as (c & off1 & K1 & G & ->). unfold after in H3.
    apply cbind_ok in H3. destruct H3 as ([[op f] rhs] & s3 & H2 & H3). cbv beta iota in H3. rewrite optimize_state in H2.
    destruct (gopt fl (code_of o) (op_flags fl (sym o ++ "=") (code_of o)) (r_addr r1) K1) as [[[op' f'] rhs'] K2] eqn:Go. ok3 H2.
    destruct (check_value l) eqn:Cl; [|discriminate].
    unfold cbind in H3. rewrite emit_after in H3. unfold cret in H3. ok2 H3.
    apply expr_stop in H; [|exact I]. destruct H as (_ & _ & ->).
    unfold l in *. destruct (lookup_var x (scp V fs)) as [v|] eqn:Lk.
    - cbn [r_addr r_const] in *. eexists _, [], _, _. cbn [CompGen.gstmt]. rewrite Lk, G, Go. split; [reflexivity|]. apply after_after.
    - destruct (is_function fns x); discriminate Cl.
  Qed.
  Definition step_code (up : bool) : N := if up then OP_ADD else OP_SUB.
  Lemma operator_step up rec l ns : 
    operator fl rec (step_sym up) 6 (Some l) ns =
    (if r_const l then cerr
     else
       let! out := new_addr in
       do! copy (at_addr out) l in
       let! one := get_const (VUint 1) in
       do! emit (step_code up) (math_flags fl) (r_addr l) out one in
       do! copy l (at_addr (r_addr l)) in cret (at_addr out, ns)) /\
    operator fl rec (step_sym up) 6 None ns =
    match ns with
    | [] => cerr
    | _ => let! (out, rest) := rec ns None 6%Z in
              if r_const out then cerr
              else
                let! one := get_const (VUint 1) in
                do! emit (step_code up) (math_flags fl) (r_addr out) (r_addr out) one in
                do! copy out (at_addr (r_addr out)) in cret (out, rest)
    end.
  Proof. destruct up; split; try reflexivity; destruct ns; reflexivity. Qed.
  Lemma gcopy_same a : gcopy a a = [].
  Proof. unfold gcopy. now rewrite N.eqb_refl. Qed.
  Lemma step_ok up (q : bool) x cd off V fs K L r s' :
    sub fuel (if q then [NOp (step_sym up); NId x] else [NId x; NOp (step_sym up)]) (state cd off V fs K L) = COk r s' ->
    tree_ok (Step up q x) cd off V fs K L s'.
  Proof.
    intros H. apply sub_inv in H. destruct q.
    - apply expr_node with (rank := 6%Z) in H; [|destruct up; reflexivity|lia].
      destruct H as (m1 & out & rest1 & s1 & -> & H1 & H). cbn [one_node] in H1.
      rewrite (proj2 (operator_step up (expr m1) no_vref [NId x])) in H1.
      apply cbind_ok in H1. destruct H1 as ([r1 rest2] & s2 & H1 & H2). cbv beta iota in H2.
      apply expr_node with (rank := 1%Z) in H1; [|reflexivity|lia].
      destruct H1 as (m2 & out2 & rest3 & s3 & -> & H3 & H1). cbn [one_node] in H3. ok2 H3.
      rewrite find_state in H1. apply expr_stop in H1; [|exact I]. destruct H1 as (-> & -> & ->).
      set (l := match lookup_var x (scp V fs) with Some v => _ | None => _ end) in *.
      destruct (r_const l) eqn:Rc; [discriminate|].
      unfold cbind at 1 in H2. rewrite get_const_state in H2.
      unfold cbind at 1 in H2. rewrite emit_after in H2.
      apply cbind_ok in H2. destruct H2 as (o & s3 & H2 & H3). ok2 H3. unfold after in H2.
      apply copy_state in H2. destruct H2 as (_ & Cl & _ & -> & ->).
      cbn [r_addr at_addr] in H. rewrite gcopy_same in H. apply expr_stop in H; [|exact I]. destruct H as (_ & _ & ->).
      unfold l in *. destruct (lookup_var x (scp V fs)) as [v|] eqn:Lk.
      + cbn [r_addr r_const] in *. unfold tree_ok. cbn [CompGen.gstmt]. rewrite Lk, Rc. destruct (kaddr (VUint 1) K). eexists _, [], _, _. split; [reflexivity|].
        rewrite after_after. reflexivity.
      + destruct (is_function fns x); discriminate Cl.
    - apply name_first in H. destruct H as (m & H). rewrite find_state in H.
      apply expr_node with (rank := 6%Z) in H; [|destruct up; reflexivity|lia].
      destruct H as (m1 & out & rest1 & s1 & -> & H1 & H). cbn [one_node] in H1.
      set (l := match lookup_var x (scp V fs) with Some v => _ | None => _ end) in *.
      rewrite (proj1 (operator_step up (expr m1) l [])) in H1.
      destruct (r_const l) eqn:Rc; [discriminate|].
      unfold cbind at 1 in H1. rewrite new_addr_state in H1.
      apply cbind_ok in H1. destruct H1 as (o & s2 & H2 & H1). apply copy_state in H2. destruct H2 as (Cl & _ & _ & -> & ->). unfold after in H1.
      unfold cbind at 1 in H1. rewrite get_const_state in H1.
      unfold cbind at 1 in H1. rewrite emit_after in H1.
      apply cbind_ok in H1. destruct H1 as (o & s2 & H2 & H1). unfold after in H2. apply copy_state in H2. destruct H2 as (_ & _ & _ & -> & ->).
      ok2 H1. cbn [r_addr at_addr] in H. rewrite gcopy_same in H. apply expr_stop in H; [|exact I]. destruct H as (_ & _ & ->).
      unfold l in *. destruct (lookup_var x (scp V fs)) as [v|] eqn:Lk.
      + cbn [r_addr r_const] in *. unfold tree_ok. cbn [CompGen.gstmt]. rewrite Lk, Rc. destruct (kaddr (VUint 1) K). eexists _, [], _, _. split; [reflexivity|].
        rewrite after_nil. cbn [fst snd]. rewrite <- after_after. reflexivity.
      + destruct (is_function fns x); discriminate Cl.
  Qed.
  Lemma return_none_ok cd off V fs K L r s' :
    sub fuel [NOp "return"] (state cd off V fs K L) = COk r s' -> tree_ok (Return None) cd off V fs K L s'.
  Proof.
    intros H. apply sub_inv in H. apply expr_node with (rank := 17%Z) in H; [|reflexivity|lia].
    destruct H as (m1 & out & rest1 & s1 & -> & H1 & H). cbn [one_node] in H1.
    change (operator fl (expr m1) "return" 17 None []) with (do! emit OP_RET 0 0 0 0 in cret (no_vref, @nil node)) in H1.
    unfold cbind in H1. rewrite emit_after in H1. unfold cret in H1. ok2 H1.
    apply expr_stop in H; [|exact I]. destruct H as (_ & _ & ->). eexists _, [], _, _. split; reflexivity.
  Qed.
  Lemma return_some_ok e cd off V fs K L r s' : plain_exp e = true ->
    sub fuel (NOp "return" :: flat e) (state cd off V fs K L) = COk r s' -> tree_ok (Return (Some e)) cd off V fs K L s'.
  Proof.
    intros P H. apply sub_inv in H. apply expr_node with (rank := 17%Z) in H; [|reflexivity|lia].
    destruct H as (m1 & out & rest1 & s1 & -> & H1 & H). cbn [one_node] in H1.
    destruct (flat_cons e) as (n0 & ns0 & Fe). 
    change (operator fl (expr m1) "return" 17 None (flat e)) with
      (match flat e with
       | [] => do! emit OP_RET 0 0 0 0 in cret (no_vref, @nil node)
       | _ => let! (r, rest) := expr m1 (flat e) None 17%Z in
              do! copy (at_addr MEM_STACK) r in
              do! emit OP_RET 0 0 0 0 in cret (no_vref, rest)
       end) in H1. rewrite Fe in H1. rewrite <- Fe in H1.
    apply cbind_ok in H1. destruct H1 as ([r1 rest2] & s2 & H1 & H2). cbv beta iota in H2.
    apply operand_all in H1; [|assumption|lia]. destruct H1 as (-> & R).
    apply cbind_ok in H2. destruct H2 as (o & s3 & H2 & H3).
    destruct (check_value r1) eqn:Ck; [|unfold copy in H2; rewrite Ck in H2; discriminate].
    destruct (R Ck) as (c & off1 & K1 & G & ->). unfold after in H2. apply copy_state in H2. destruct H2 as (_ & _ & _ & -> & ->).
    unfold cbind in H3. rewrite after_after, emit_more in H3. unfold cret in H3. ok2 H3.
    apply expr_stop in H; [|exact I]. destruct H as (_ & _ & ->).
    eexists _, [], _, _. cbn [CompGen.gstmt]. rewrite G. split; [reflexivity|]. cbn [r_addr at_addr]. now rewrite <- app_assoc.
  Qed.
  Lemma assert_ok e cd off V fs K L r s' : plain_exp e = true ->
    sub fuel [NId "assert"; NSub [flat e]] (state cd off V fs K L) = COk r s' -> tree_ok (Assert e) cd off V fs K L s'.
  Proof.
    intros P H. apply sub_inv in H. apply expr_call in H; [|lia]. destruct H as (m & out & s1 & H1 & H).
    change (call_fn text fns cc (expr m) "assert"%string [flat e]) with
      (let! r := sub_with (expr m) (flat e) in let! cond := get r in
       let! pos := here in
       do! emit OP_JUMPI 0 (N.of_nat pos + 2) cond 0 in
       let! a := get_const (fail_text text e) in
       do! emit OP_FAIL 0 a 0 0 in cret (at_addr 0)) in H1.
    apply cbind_ok in H1. destruct H1 as (r1 & s2 & H2 & H1).
    eapply parses_sub in H2; [|apply parses_all|exact P]. destruct H2 as (_ & c & off1 & K1 & G & ->).
    apply cbind_ok in H1. destruct H1 as (a & s3 & H2 & H1). apply get_ok in H2. destruct H2 as (_ & -> & ->).
    unfold cbind at 1 in H1. rewrite here_after in H1. unfold cbind at 1 in H1. rewrite emit_more in H1.
    unfold after in H1. unfold cbind at 1 in H1. rewrite get_const_state in H1.
    unfold cbind at 1 in H1. rewrite emit_after in H1. unfold cret in H1. ok1 H1.
    apply expr_stop in H; [|exact I]. destruct H as (_ & _ & ->).
    unfold tree_ok. cbn [CompGen.gstmt]. rewrite G. destruct (kaddr (fail_text text e) K1). eexists _, [], _, _. split; [reflexivity|].
    rewrite after_after. cbn [fst snd]. now rewrite <- app_assoc.
  Qed.

  Lemma push_state cd off V fs K L : push_scope (state cd off V fs K L) = COk tt (state cd off [] (mk_frame off V :: fs) K L).
  Proof. reflexivity. Qed.
  Lemma pop_after cd c off V f fs K L : pop_scope (after cd c off V (f :: fs) K L) = COk tt (after cd c (f_off f) (f_vars f) fs K L).
  Proof. unfold pop_scope, after, state. cbn. now destruct f. Qed.
  Lemma scp_push off V fs : scp [] (mk_frame off V :: fs) = scp V fs.
  Proof. reflexivity. Qed.
  Lemma scp_app D V fs : scp (D ++ V) fs = D ++ scp V fs.
  Proof. unfold CompParse.scp. cbn. now rewrite <- !app_assoc. Qed.

  Definition stree (s : stmt) : Prop := forall K0 cd off V fs K L u s',
    plain K0 s = true -> tree_code fuel (tree_of s) (state cd off V fs K L) = COk u s' -> tree_ok s cd off V fs K L s'.
  Lemma gstmts_cons s l G off K pos : gstmts gstmt (s :: l) G off K pos =
    match gstmt s G off K pos with
    | Some (c, D, off1, K1) =>
      match gstmts gstmt l (D ++ G) off1 K1 (pos + List.length c) with
      | Some (c2, D2, off2, K2) => Some (c ++ c2, D2 ++ D, off2, K2)
      | None => None
      end
    | None => None
    end.
  Proof. reflexivity. Qed.
  Lemma strees l : Forall stree l -> forall K0 cd off V fs K L u s',
    forallb (plain K0) l = true -> trees (map tree_of l) (state cd off V fs K L) = COk u s' ->
    exists c D off' K', gstmts gstmt l (scp V fs) off K (List.length cd) = Some (c, D, off', K') /\ s' = after cd c off' (D ++ V) fs K' L.
  Proof.
    induction 1 as [|s l Ps _ IH]; intros K0 cd off V fs K L u s' P H; cbn [map trees] in H.
    - ok1 H. exists [], [], off, K. rewrite after_nil. auto.
    - cbn [forallb] in P. apply andb_true_iff in P. destruct P as [P1 P2].
      apply cbind_ok in H. destruct H as (u1 & s1 & H1 & H). apply (Ps K0) in H1; auto. destruct H1 as (c & D & off1 & K1 & G & ->).
      unfold after in H. apply (IH K0) in H; auto. destruct H as (c2 & D2 & off2 & K2 & G2 & ->).
      rewrite scp_app, app_length, map_length in G2. change (instr * option ident)%type with ains in G2.
      eexists _, _, _, _. rewrite gstmts_cons, G, G2. split; [reflexivity|]. rewrite after_after, <- app_assoc. reflexivity.
  Qed.
  Lemma after_here cd c off V fs K L : state (cd ++ map fst c) off V fs K (L ++ links_at (List.length cd) c) = after cd c off V fs K L.
  Proof. reflexivity. Qed.
  (** continuing after a piece of code *)
  Lemma stree_after s K0 cd c off V fs K L u s' : stree s -> plain K0 s = true ->
    tree_code fuel (tree_of s) (after cd c off V fs K L) = COk u s' ->
    exists c2 D off' K', gstmt s (scp V fs) off K (List.length cd + List.length c) = Some (c2, D, off', K') /\
                         s' = after cd (c ++ c2) off' (D ++ V) fs K' L.
  Proof.
    intros S P H. unfold after in H. apply (S K0) in H; auto. destruct H as (c2 & D & off1 & K1 & G & ->).
    rewrite app_length, map_length in G. change (instr * option ident)%type with ains in G. eexists _, _, _, _. split; [exact G|]. apply after_after.
  Qed.
  Lemma sub_after e cd c off V fs K L a s' : plain_exp e = true ->
    sub_get fl text fns globals cc fuel (flat e) (after cd c off V fs K L) = COk a s' ->
    exists c2 off' K', gexp (scp V fs) e off K = Some (c2, a, off', K') /\ s' = after cd (c ++ c2) off' V fs K' L.
  Proof.
    intros P H. unfold after in H. apply sub_get_plain in H; auto. destruct H as (c2 & off1 & K1 & G & ->).
    eexists _, _, _. split; [exact G|]. apply after_after.
  Qed.
  Lemma strees_after l K0 cd c off V fs K L u s' : Forall stree l -> forallb (plain K0) l = true ->
    trees (map tree_of l) (after cd c off V fs K L) = COk u s' ->
    exists c2 D off' K', gstmts gstmt l (scp V fs) off K (List.length cd + List.length c) = Some (c2, D, off', K') /\
                         s' = after cd (c ++ c2) off' (D ++ V) fs K' L.
  Proof.
    intros S P H. unfold after in H. apply (strees l S K0) in H; auto. destruct H as (c2 & D & off1 & K1 & G & ->).
    rewrite app_length, map_length in G. change (instr * option ident)%type with ains in G. eexists _, _, _, _. split; [exact G|]. apply after_after.
  Qed.

  Lemma decl_ok q x e cd off V fs K L u s' : plain_exp e = true -> (q = QLet \/ is_lit e = false) ->
    tree_code fuel (TVar q x (Some (flat e))) (state cd off V fs K L) = COk u s' ->
    exists c off' K', declare fl fns (match q with QConst => true | QLet => false end) x e (scp V fs) off K = Some (c, [(x, mk_var (match q with QConst => true | QLet => false end) (MEM_STACK + off))], off', K') /\
                      s' = after cd c off' ((x, mk_var (match q with QConst => true | QLet => false end) (MEM_STACK + off)) :: V) fs K' L.
  Proof.
    intros P Q H. rewrite tree_decl in H.
    2:{ destruct Q as [->|Q]; [now left|right]. intros v Fe. apply flat_const in Fe. destruct Fe as (w & ->). discriminate Q. }
    unfold cbind at 1 in H. rewrite new_addr_state in H.
    apply cbind_ok in H. destruct H as (u1 & s1 & H1 & H). apply cbind_ok in H1. destruct H1 as (r & s2 & H2 & H1).
    apply sub_plain in H2; auto. destruct H2 as (Ck & c & off1 & K1 & G & ->). unfold after in H1. apply copy_state in H1.
    destruct H1 as (_ & _ & _ & _ & ->). cbn [r_addr at_addr] in H. rewrite after_after in H. unfold after in H.
    apply add_variable_state in H. subst s'. unfold declare. rewrite G. eexists _, _, _. split; reflexivity.
  Qed.

  Lemma stree_all s : stree s.
  Proof.
    induction s as [x e|x e|x e|o x e|up q x|e|e|e|l IHl|c s e IHs IHe|c s IHs|i c q s IHi IHq IHs] using stmt_ind2;
      intros K0 cd off V fs K L u s' P H; cbn [tree_of] in H; cbn [plain] in P.
    - (* Let *)
      destruct e as [e|]; cbn [option_map] in H.
      + apply decl_ok in H; auto. destruct H as (c & off1 & K1 & G & ->). eexists _, _, _, _. split; [exact G|reflexivity].
      + change (tree_code fuel (TVar QLet x None)) with
          (let! a := new_addr in do! copy (at_addr a) (at_addr 0) in add_variable x (mk_var false a)) in H.
        unfold cbind at 1 in H. rewrite new_addr_state in H. apply cbind_ok in H. destruct H as (u1 & s1 & H1 & H).
        apply copy_state in H1. destruct H1 as (_ & _ & _ & _ & ->). unfold after in H. apply add_variable_state in H. subst s'.
        eexists _, _, _, _. split; reflexivity.
    - (* Const *)
      apply andb_true_iff in P. destruct P as [P _]. destruct (is_lit e) eqn:Le.
      + destruct e as [v|x0|e0|e0|o a b|e0|q a l|f l]; try discriminate Le. cbn [flat] in H.
        change (tree_code fuel (TVar QConst x (Some [NConst (val_of v)]))) with (let! a := get_const (val_of v) in add_variable x (mk_var true a)) in H.
        unfold cbind in H. rewrite get_const_state in H. apply add_variable_state in H. subst s'.
        unfold tree_ok. cbn [CompGen.gstmt]. destruct (kaddr (val_of v) K) as [a K1]. eexists _, _, _, _. split; [reflexivity|].
        rewrite after_nil. reflexivity.
      + apply decl_ok in H; auto. destruct H as (c & off1 & K1 & G & ->). exists c, [(x, mk_var true (MEM_STACK + off))], off1, K1.
        split; [|reflexivity]. destruct e as [v|x0|e0|e0|o a b|e0|q a l|f l]; try discriminate Le; exact G.
    - cbn [CompModel.tree_code] in H. apply cbind_ok in H. destruct H as (r & s1 & H & H1). ok1 H1. now apply assign_ok in H.
    - apply andb_true_iff in P. destruct P as [P _]. apply andb_true_iff in P. destruct P as [P U].
      cbn [CompModel.tree_code] in H. apply cbind_ok in H. destruct H as (r & s1 & H & H1). ok1 H1. now apply update_ok in H.
    - cbn [CompModel.tree_code] in H. apply cbind_ok in H. destruct H as (r & s1 & H & H1). ok1 H1. now apply step_ok in H.
    - cbn [CompModel.tree_code] in H. apply cbind_ok in H. destruct H as (r & s1 & H & H1). ok1 H1. apply sub_plain in H; auto.
      destruct H as (_ & c & off1 & K1 & G & ->). eexists _, [], _, _. cbn [CompGen.gstmt]. rewrite G. split; reflexivity.
    - cbn [CompModel.tree_code] in H. apply cbind_ok in H. destruct H as (r & s1 & H & H1). ok1 H1. now apply assert_ok in H.
    - cbn [CompModel.tree_code] in H. apply cbind_ok in H. destruct H as (r & s1 & H & H1). ok1 H1.
      destruct e as [e|]; [now apply return_some_ok in H|now apply return_none_ok in H].
    - (* Block *)
      rewrite tree_scope in H. unfold cbind at 1 in H. rewrite push_state in H. apply cbind_ok in H. destruct H as (u1 & s1 & H1 & H).
      apply (strees l IHl K0) in H1; auto. destruct H1 as (c & D & off1 & K1 & G & ->). rewrite scp_push in G. rewrite pop_after in H. ok1 H.
      eexists _, [], _, _. cbn [CompGen.gstmt]. rewrite G. split; reflexivity.
    - (* If *)
      repeat rewrite andb_true_iff in P. destruct P as (((Pc & Ps) & _) & Pe).
      cbn [CompModel.tree_code] in H. apply cbind_ok in H. destruct H as (a & s1 & H1 & H).
      apply sub_get_plain in H1; auto. destruct H1 as (c1 & off1 & K1 & G1 & ->).
      unfold cbind at 1 in H. rewrite here_after in H. unfold cbind at 1 in H. rewrite emit_more in H.
      apply cbind_ok in H. destruct H as (u1 & s1 & H1 & H). apply (stree_after s K0) in H1; auto.
      destruct H1 as (c2 & D & off2 & K2 & G2 & ->). rewrite app_length in G2. cbn [List.length] in G2.
      destruct e as [e|].
      + apply andb_true_iff in Pe. destruct Pe as [Pe _].
        unfold cbind at 1 in H. rewrite here_after in H. unfold cbind at 1 in H. rewrite emit_more in H.
        unfold cbind at 1 in H. rewrite here_after in H. rewrite <- !app_assoc in H. cbn [app] in H.
        unfold cbind at 1 in H. erewrite (patch_eq _ _ _ _ c1) in H; [|reflexivity|reflexivity].
        apply cbind_ok in H. destruct H as (u2 & s1 & H1 & H). apply (stree_after e K0) in H1; auto.
        destruct H1 as (c3 & D3 & off3 & K3 & G3 & ->).
        unfold cbind at 1 in H. rewrite here_after in H. rewrite <- !app_assoc in H. cbn [app] in H.
        match type of H with patch _ _ (after _ (c1 ++ ?j :: _ ++ _) _ _ _ _ _) = _ =>
          erewrite (patch_eq _ _ _ _ (c1 ++ j :: c2)) in H;
          [|rewrite <- app_assoc; cbn [app]; rewrite <- app_assoc; reflexivity|rewrite !app_length; cbn [List.length]; rewrite ?app_length; cbn [List.length]; lia] end.
        ok1 H.
        eexists _, _, _, _. cbn [CompGen.gstmt]. rewrite G1. rewrite scp_app in G3.
        replace (List.length cd + List.length c1 + 1)%nat with (List.length cd + (List.length c1 + 1))%nat by lia. rewrite G2.
        rewrite !app_length in G3. cbn [List.length] in G3. rewrite !app_length in G3. cbn [List.length] in G3.
        change (instr * option ident)%type with ains in *.
        match type of G3 with gstmt _ _ _ _ ?n = _ => match goal with |- context [gstmt e _ _ _ ?m] => replace m with n by lia end end.
        rewrite G3. split; [reflexivity|]. rewrite <- !app_assoc. cbn [app]. f_equal.
        unfold set_a, ins. cbn [i_code i_flags i_b i_c i_d].
        rewrite !app_length; cbn [List.length]; rewrite ?app_length; cbn [List.length]; rewrite ?app_length; cbn [List.length].
        repeat (f_equal; try lia).
      + unfold cbind at 1 in H. rewrite here_after in H. rewrite <- !app_assoc in H. cbn [app] in H.
        erewrite (patch_eq _ _ _ _ c1) in H; [|reflexivity|reflexivity]. ok1 H.
        eexists _, _, _, _. cbn [CompGen.gstmt]. rewrite G1.
        replace (List.length cd + List.length c1 + 1)%nat with (List.length cd + (List.length c1 + 1))%nat by lia. rewrite G2.
        split; [reflexivity|]. f_equal. unfold set_a, ins. cbn [i_code i_flags i_b i_c i_d]. rewrite !app_length; cbn [List.length].
        repeat (f_equal; try lia).
    - (* While *)
      repeat rewrite andb_true_iff in P. destruct P as ((Pc & Ps) & _).
      cbn [CompModel.tree_code] in H. unfold cbind at 1 in H. rewrite here_state in H.
      apply cbind_ok in H. destruct H as (a & s1 & H1 & H).
      apply sub_get_plain in H1; auto. destruct H1 as (c1 & off1 & K1 & G1 & ->).
      unfold cbind at 1 in H. rewrite here_after in H. unfold cbind at 1 in H. rewrite emit_more in H.
      apply cbind_ok in H. destruct H as (u1 & s1 & H1 & H). apply (stree_after s K0) in H1; auto.
      destruct H1 as (c2 & D & off2 & K2 & G2 & ->). rewrite app_length in G2. cbn [List.length] in G2.
      unfold cbind at 1 in H. rewrite emit_more in H. unfold cbind at 1 in H. rewrite here_after in H. rewrite <- !app_assoc in H. cbn [app] in H.
      erewrite (patch_eq _ _ _ _ c1) in H; [|reflexivity|reflexivity]. ok1 H.
      eexists _, _, _, _. cbn [CompGen.gstmt]. rewrite G1.
      replace (List.length cd + List.length c1 + 1)%nat with (List.length cd + (List.length c1 + 1))%nat by lia. rewrite G2.
      split; [reflexivity|]. f_equal. unfold set_a, ins. cbn [i_code i_flags i_b i_c i_d].
      rewrite !app_length; cbn [List.length]; rewrite ?app_length; cbn [List.length].
      repeat (f_equal; try lia).
    - (* For *)
      repeat rewrite andb_true_iff in P. destruct P as (((((Pi & Pc) & Pq) & _) & Ps) & _).
      rewrite tree_for in H. unfold cbind at 1 in H. rewrite push_state in H.
      apply cbind_ok in H. destruct H as (u0 & s1 & H1 & H). apply (strees i IHi K0) in H1; auto.
      destruct H1 as (c0 & D0 & off0 & K0' & G0 & ->). rewrite scp_push in G0.
      unfold cbind at 1 in H. rewrite here_after in H.
      apply cbind_ok in H. destruct H as (a & s1 & H1 & H). apply sub_after in H1; auto. destruct H1 as (c1 & off1 & K1 & G1 & ->).
      rewrite scp_app, scp_push in G1.
      unfold cbind at 1 in H. rewrite here_after in H. unfold cbind at 1 in H. rewrite emit_more in H.
      apply cbind_ok in H. destruct H as (u1 & s1 & H1 & H). apply (stree_after s K0) in H1; auto.
      destruct H1 as (c2 & D & off2 & K2 & G2 & ->). rewrite scp_app, scp_push in G2.
      apply cbind_ok in H. destruct H as (u2 & s1 & H1 & H). apply (strees_after q K0) in H1; auto.
      destruct H1 as (c3 & D3 & off3 & K3 & G3 & ->). rewrite scp_app, scp_app, scp_push in G3.
      unfold cbind at 1 in H. rewrite emit_more in H. unfold cbind at 1 in H. rewrite here_after in H. rewrite <- !app_assoc in H. cbn [app] in H.
      unfold cbind at 1 in H.
      erewrite (patch_eq _ _ _ _ (c0 ++ c1)) in H; [|rewrite <- app_assoc; reflexivity|rewrite !app_length; cbn [List.length]; lia].
      rewrite pop_after in H. ok1 H.
      unfold tree_ok. cbn [CompGen.gstmt]. rewrite G0, G1.
      change (instr * option ident)%type with ains in *. rewrite !app_length in G2. rewrite !app_length in G3. cbn [List.length] in G2, G3.
      replace (List.length cd + List.length c0 + List.length c1 + 1)%nat with (List.length cd + (List.length c0 + List.length c1 + 1))%nat by lia. rewrite G2.
      replace (List.length cd + (List.length c0 + List.length c1 + 1) + List.length c2)%nat
        with (List.length cd + (List.length c0 + List.length c1 + 1 + List.length c2))%nat by lia. rewrite G3.
      eexists _, [], _, _. split; [reflexivity|]. cbn [f_off f_vars app]. rewrite <- app_assoc. f_equal. unfold set_a, ins. cbn [i_code i_flags i_b i_c i_d].
      rewrite !app_length; cbn [List.length]; rewrite ?app_length; cbn [List.length]; rewrite ?app_length; cbn [List.length].
      repeat (f_equal; try lia).
  Qed.
End TREE.
