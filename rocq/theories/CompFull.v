(** Parentheses around every operand do not change what the compiler makes of a program. *)
Require Import List Arith NArith ZArith Bool String Lia.
From Verif Require Import BytesLib VarModel InstrModel EngineModel CompModel CompSpec CompGen CompParse CompTree CompLink.
Import List ListNotations.
Open Scope N_scope.

Lemma forallb_map {A B} (f : B -> bool) (g : A -> B) l : forallb f (map g l) = forallb (fun a => f (g a)) l.
Proof. induction l; cbn; congruence. Qed.
Lemma forallb_imp {A} (f g : A -> bool) l : Forall (fun a => f a = true -> g a = true) l -> forallb f l = true -> forallb g l = true.
Proof.
  induction 1 as [|a l H _ IH]; auto. cbn. intros K. apply andb_true_iff in K. destruct K as [K1 K2]. rewrite (H K1). now apply IH.
Qed.
Lemma forallb_eq {A} (f g : A -> bool) l : Forall (fun a => f a = g a) l -> forallb f l = forallb g l.
Proof. induction 1 as [|a l H _ IH]; auto. cbn. congruence. Qed.
Lemma existsb_eq {A} (f g : A -> bool) l : Forall (fun a => f a = g a) l -> existsb f l = existsb g l.
Proof. induction 1 as [|a l H _ IH]; auto. cbn. congruence. Qed.
Lemma existsb_map {A B} (f : B -> bool) (g : A -> B) l : existsb f (map g l) = existsb (fun a => f (g a)) l.
Proof. induction l; cbn; congruence. Qed.

Lemma full_customary e : customary e = true -> customary (full e) = true.
Proof.
  induction e as [v|x|e IH|e IH|o a b IHa IHb|e IH|q a l IHa IHl|f l IHl] using exp_ind2; cbn [full customary]; auto; intros H;
    repeat rewrite andb_true_iff in *.
  - destruct H as [H _]. auto.
  - destruct H as [H _]. auto.
  - destruct H as (((H1 & H2) & _) & _). repeat split; auto; cbn [level]; destruct o; reflexivity.
  - destruct H as [H1 H2]. split; auto. rewrite forallb_map. revert H2. now apply forallb_imp.
  - rewrite forallb_map. revert H. now apply forallb_imp.
Qed.
Lemma full_unmixed e : unmixed e = true -> unmixed (full e) = true.
Proof.
  induction e as [v|x|e IH|e IH|o a b IHa IHb|e IH|q a l IHa IHl|f l IHl] using exp_ind2; cbn [full unmixed mixes]; auto; intros H;
    repeat rewrite andb_true_iff in *.
  - destruct H as (((H1 & H2) & _) & _). repeat split; auto.
  - destruct H as [H1 H2]. split; auto. rewrite forallb_map. revert H2. now apply forallb_imp.
  - rewrite forallb_map. revert H. now apply forallb_imp.
Qed.
Lemma full_proper e : proper e = true -> proper (full e) = true.
Proof.
  induction e as [v|x|e IH|e IH|o a b IHa IHb|e IH|q a l IHa IHl|f l IHl] using exp_ind2; cbn [full proper]; auto; intros H;
    repeat rewrite andb_true_iff in *.
  - destruct H. auto.
  - destruct H as [H1 H2]. split; auto. rewrite forallb_map. revert H2. now apply forallb_imp.
  - destruct H as [H1 H2]. split; auto. rewrite forallb_map. revert H2. now apply forallb_imp.
Qed.
Lemma full_plain_exp e : plain_exp e = true -> plain_exp (full e) = true.
Proof.
  unfold plain_exp. repeat rewrite andb_true_iff. intros ((A & B) & C).
  auto using full_customary, full_unmixed, full_proper.
Qed.
Lemma full_is_lit e : is_lit (full e) = is_lit e.
Proof. destruct e; reflexivity. Qed.
Lemma full_declares s : declares (full_stmt s) = declares s.
Proof. destruct s; reflexivity. Qed.
Lemma full_plain K s : plain K s = true -> plain K (full_stmt s) = true.
Proof.
  induction s as [x e|x e|x e|o x e|up q x|e|e|e|l IHl|c s e IHs IHe|c s IHs|i c q s IHi IHq IHs] using stmt_ind2;
    cbn [full_stmt plain]; auto using full_plain_exp; intros H; repeat rewrite andb_true_iff in *.
  - destruct e; cbn [option_map]; auto using full_plain_exp.
  - rewrite full_is_lit. destruct H. auto using full_plain_exp.
  - destruct H as ((A & B) & C). auto using full_plain_exp.
  - destruct e; cbn [option_map]; auto using full_plain_exp.
  - rewrite forallb_map. revert H. now apply forallb_imp.
  - rewrite full_declares. destruct H as (((A & B) & C) & D). repeat split; auto using full_plain_exp.
    destruct e as [e|]; auto. rewrite full_declares. apply andb_true_iff in D. destruct D as [D1 D2]. rewrite D2, (IHe e eq_refl D1). reflexivity.
  - rewrite full_declares. destruct H as ((A & B) & C). repeat split; auto using full_plain_exp.
  - rewrite full_declares, !forallb_map. destruct H as (((((A & B) & C) & D) & E) & F). repeat split; auto using full_plain_exp.
    + revert A. now apply forallb_imp.
    + revert C. now apply forallb_imp.
    + rewrite <- D. apply forallb_eq. apply Forall_forall. intros t _. now rewrite full_declares.
Qed.
Lemma full_strip e : match strip (full e) with Lit _ => true | Var _ => true | _ => false end = match strip e with Lit _ => true | Var _ => true | _ => false end
  /\ forall x, match strip (full e) with Var y => String.eqb x y | _ => false end = match strip e with Var y => String.eqb x y | _ => false end.
Proof. induction e as [v|x|e IH|e IH|o a b IHa IHb|e IH|q a l IHa|f l] ; cbn [full strip]; auto. Qed.
Lemma full_quiet s : quiet (full_stmt s) = quiet s.
Proof.
  induction s as [x e|x e|x e|o x e|up q x|e|e|e|l IHl|c s e IHs IHe|c s IHs|i c q s IHi IHq IHs] using stmt_ind2;
    cbn [full_stmt quiet]; auto using full_is_lit.
  - apply full_strip.
  - apply full_strip.
  - rewrite forallb_map. now apply forallb_eq.
Qed.
Lemma full_ends s : ends_in_return (full_stmt s) = ends_in_return s.
Proof.
  induction s as [x e|x e|x e|o x e|up q x|e|e|e|l IHl|c s e IHs IHe|c s IHs|i c q s IHi IHq IHs] using stmt_ind2;
    cbn [full_stmt ends_in_return]; auto.
  - induction IHl as [|s l Hs _ IH]; auto. cbn [map]. rewrite forallb_map.
    rewrite (forallb_eq (fun a => quiet (full_stmt a)) quiet) by (apply Forall_forall; intros; apply full_quiet).
    rewrite Hs, IH. reflexivity.
  - destruct e as [e|]; auto.
Qed.
Lemma full_returns s : returns (full_stmt s) = returns s.
Proof.
  induction s as [x e|x e|x e|o x e|up q x|e|e|e|l IHl|c s e IHs IHe|c s IHs|i c q s IHi IHq IHs] using stmt_ind2;
    cbn [full_stmt returns]; auto.
  - rewrite existsb_map. now apply existsb_eq.
  - destruct e as [e|]; auto. rewrite IHs, (IHe e eq_refl). reflexivity.
Qed.
Lemma full_plain_func K f : plain_func K f = true -> plain_func K (full_func f) = true.
Proof.
  unfold plain_func. cbn [full_func sf_body sf_args sf_name]. repeat rewrite andb_true_iff. intros (((A & B) & C) & D). repeat split; auto.
  - rewrite forallb_map. revert A. apply forallb_imp. apply Forall_forall. intros s _. apply full_plain.
  - rewrite <- D. change (Block (map full_stmt (sf_body f))) with (full_stmt (Block (sf_body f))). now rewrite full_returns, full_ends.
Qed.

Section SAME.
  Variable fl : flags.
  Variable text : list node -> bytes.
  Variable fns fns' : list fn.
  Hypothesis SF : forall x, option_map fn_args (find_fn fns' x) = option_map fn_args (find_fn fns x).
  Hypothesis ST : forall e, text (flat (full e)) = text (flat e).
  Notation ge := (CompGen.gexp fl fns).
  Notation ge' := (CompGen.gexp fl fns').
  Lemma gexps_same G l : Forall (fun e => forall off K, ge' G (full e) off K = ge G e off K) l ->
    forall off K, gexps (ge' G) (map full l) off K = gexps (ge G) l off K.
  Proof.
    induction 1 as [|e l He _ IH]; intros off K; cbn [map gexps]; auto. rewrite He.
    destruct (ge G e off K) as [[[[c1 a1] off1] K1]|]; auto. now rewrite IH.
  Qed.
  Lemma gpicks_same G l : Forall (fun e => forall off K, ge' G (full e) off K = ge G e off K) l ->
    forall op d lhs off K, gpicks (ge' G) op d lhs (map full l) off K = gpicks (ge G) op d lhs l off K.
  Proof.
    induction 1 as [|e l He _ IH]; intros op d lhs off K; cbn [map gpicks]; auto. rewrite He.
    destruct (ge G e off K) as [[[[c1 a1] off1] K1]|]; auto. now rewrite IH.
  Qed.
  Lemma gexp_same G e : forall off K, ge' G (full e) off K = ge G e off K.
  Proof.
    induction e as [v|x|e IH|e IH|o a b IHa IHb|e IH|q a l IHa IHl|f l IHl] using exp_ind2; intros off K;
      cbn [full CompGen.gexp]; auto.
    - now rewrite IH.
    - now rewrite IH.
    - rewrite IHa. destruct (ge G a off K) as [[[[c1 a2] off1] K1]|]; auto. now rewrite !IHb.
    - rewrite IHa. destruct l as [|e2 l]; auto. change (match map full (e2 :: l) with [] => None | _ :: _ => ?x end) with x.
      destruct (ge G a (off + 1) K) as [[[[c1 a2] off1] K1]|]; auto.
      rewrite (gpicks_same G (e2 :: l)) by auto. reflexivity.
    - specialize (SF f). destruct (find_fn fns' f) as [g'|], (find_fn fns f) as [g|]; try discriminate SF; auto.
      cbn [option_map] in SF. injection SF as SF. rewrite SF, map_length, (gexps_same G l IHl). reflexivity.
  Qed.
  Notation gs := (CompGen.gstmt fl text fns).
  Notation gs' := (CompGen.gstmt fl text fns').
  Lemma gstmts_same l : Forall (fun s => forall G off K pos, gs' (full_stmt s) G off K pos = gs s G off K pos) l ->
    forall G off K pos, gstmts gs' (map full_stmt l) G off K pos = gstmts gs l G off K pos.
  Proof.
    induction 1 as [|s l Hs _ IH]; intros G off K pos; cbn [map]; [reflexivity|]. rewrite !gstmts_cons, Hs.
    destruct (gs s G off K pos) as [[[[c1 a1] off1] K1]|]; auto. now rewrite IH.
  Qed.
  Lemma declare_same q x e G off K : declare fl fns' q x (full e) G off K = declare fl fns q x e G off K.
  Proof. unfold declare. now rewrite gexp_same. Qed.
  Lemma gstmt_same s : forall G off K pos, gs' (full_stmt s) G off K pos = gs s G off K pos.
  Proof.
    induction s as [x e|x e|x e|o x e|up q x|e|e|e|l IHl|c s e IHs IHe|c s IHs|i c q s IHi IHq IHs] using stmt_ind2;
      intros G off K pos; cbn [full_stmt].
    - destruct e as [e|]; cbn [option_map CompGen.gstmt]; auto using declare_same.
    - destruct e; cbn [full CompGen.gstmt]; auto; rewrite <- declare_same; reflexivity.
    - cbn [CompGen.gstmt]. now rewrite gexp_same.
    - cbn [CompGen.gstmt]. now rewrite gexp_same.
    - reflexivity.
    - cbn [CompGen.gstmt]. now rewrite gexp_same.
    - cbn [CompGen.gstmt]. unfold fail_text. now rewrite gexp_same, ST.
    - destruct e as [e|]; cbn [option_map CompGen.gstmt]; auto. now rewrite gexp_same.
    - change (match gstmts gs' (map full_stmt l) G off K pos with Some (c, _, _, K1) => Some (c, [], off, K1) : sout | None => None end =
              match gstmts gs l G off K pos with Some (c, _, _, K1) => Some (c, [], off, K1) : sout | None => None end).
      now rewrite gstmts_same.
    - cbn [CompGen.gstmt]. rewrite gexp_same. destruct (ge G c off K) as [[[[c1 a] off1] K1]|]; auto. cbv zeta. rewrite IHs.
      destruct (gs s G off1 K1 _) as [[[[c2 D] off2] K2]|]; auto. destruct e as [e|]; auto. now rewrite (IHe e eq_refl).
    - cbn [CompGen.gstmt]. rewrite gexp_same. destruct (ge G c off K) as [[[[c1 a] off1] K1]|]; auto. cbv zeta. now rewrite IHs.
    - cbn [CompGen.gstmt].
      change (fix gstmts (l : list stmt) (G0 : env_t) (off0 : N) (K0 : list val) (pos0 : nat) {struct l} : sout := _) with (gstmts gs').
      rewrite (gstmts_same i) by auto.
      destruct (gstmts gs i G off K pos) as [[[[c0 D0] off0] K0]|]; auto. cbv zeta. rewrite gexp_same.
      destruct (ge _ c off0 K0) as [[[[c1 a] off1] K1]|]; auto. rewrite IHs.
      destruct (gs s _ off1 K1 _) as [[[[c2 D] off2] K2]|]; auto. now rewrite (gstmts_same q).
  Qed.
  Lemma gfn_same G f K pos : gfn fl text fns' G (full_func f) K pos = gfn fl text fns G f K pos.
  Proof.
    unfold gfn. cbn [full_func sf_body sf_args]. rewrite gstmts_same; [reflexivity|]. apply Forall_forall. intros s _. apply gstmt_same.
  Qed.
  Lemma gfns_same G l : forall K pos, gfns fl text fns' G (map full_func l) K pos = gfns fl text fns G l K pos.
  Proof.
    induction l as [|f l IH]; intros K pos; cbn [map gfns]; auto. rewrite gfn_same. destruct (gfn _ _ _ _ f K pos) as [[c K1]|]; auto.
    now rewrite IH.
  Qed.
End SAME.

Fixpoint insertf (f : func) (l : list func) : list func :=
  match l with
  | [] => [f]
  | g :: l' => match String.compare (sf_name f) (sf_name g) with Lt => f :: l | _ => g :: insertf f l' end
  end.
Definition sortf (l : list func) : list func := fold_right insertf [] l.
Lemma insertf_map f l : insert_fn (fn_of f) (map fn_of l) = map fn_of (insertf f l).
Proof.
  induction l as [|g l IH]; auto. cbn [map insert_fn insertf]. change (fn_name (fn_of f)) with (sf_name f). change (fn_name (fn_of g)) with (sf_name g).
  destruct (String.compare _ _); cbn [map]; auto; now rewrite IH.
Qed.
Lemma sortf_map l : sort_fns (map fn_of l) = map fn_of (sortf l).
Proof. induction l as [|f l IH]; auto. cbn [map sort_fns fold_right sortf]. unfold sort_fns in IH. rewrite IH. apply insertf_map. Qed.
Lemma insertf_full f l : insertf (full_func f) (map full_func l) = map full_func (insertf f l).
Proof.
  induction l as [|g l IH]; auto. cbn [map insertf full_func sf_name]. destruct (String.compare _ _); cbn [map]; auto; now rewrite IH.
Qed.
Lemma sortf_full l : sortf (map full_func l) = map full_func (sortf l).
Proof. induction l as [|f l IH]; auto. cbn [map fold_right sortf]. fold (sortf l) (sortf (map full_func l)). rewrite IH. apply insertf_full. Qed.
Lemma insertf_In f l g : In g (insertf f l) <-> g = f \/ In g l.
Proof.
  induction l as [|h l IH]; cbn [insertf].
  - cbn. intuition.
  - destruct (String.compare _ _); cbn [In]; rewrite ?IH; cbn; intuition.
Qed.
Lemma sortf_In l g : In g (sortf l) <-> In g l.
Proof. induction l as [|f l IH]; cbn; [tauto|]. fold (sortf l). rewrite insertf_In, IH. intuition. Qed.

(** the binary is a function of the program *)
Definition made (fl : flags) (text : list node -> bytes) (p : prog) : option binary :=
  match global_consts (map (fun c => (fst c, val_of (snd c))) (sp_consts p)) [] (mk_cst [] [] [VNil] []) with
  | COk G s1 =>
    match gfns fl text (map fn_of (sp_fns p)) G (sortf (sp_fns p)) (c_consts s1) 1 with
    | Some (c, M, K) => Some (mk_binary K (map (linked M) (ins OP_RET 0 0 0 0 :: c)) M)
    | None => None
    end
  | _ => None
  end.
Lemma compile_made fl text fuel p bin s : plain_prog p -> compile fl text fuel (source_of p) = COk bin s -> made fl text p = Some bin.
Proof.
  intros [Sm Pl] H. unfold compile in H. cbn [source_of p_fns p_consts] in H.
  destruct (_ && _) eqn:Ok; [|discriminate]. apply cbind_ok in H. destruct H as (G & s1 & H1 & H). unfold made. rewrite H1.
  apply (global_consts_ok _ Sm [] []) in H1; [|constructor]. destruct H1 as (K1 & -> & _ & _).
  apply cbind_ok in H. destruct H as (u & s2 & H2 & H). unfold emit in H2. cbn [c_code c_frames c_consts c_links app] in H2. ok1 H2.
  apply cbind_ok in H. destruct H as (M & s3 & H3 & H). rewrite sortf_map in H3.
  apply fns_code_ok in H3; [|apply Forall_forall; intros f Hf; apply Pl, sortf_In, Hf].
  destruct H3 as (c & K2 & fs2 & Gf & ->). cbn [List.length app] in *. cbn [c_links c_code c_consts] in *. rewrite Gf.
  destruct (link M _ _) as [code|] eqn:Lk; [|discriminate]. ok1 H.
  change 1%nat with (List.length [mk_instr OP_RET 0 0 0 0 0]) in Lk.
  rewrite <- (app_nil_r (map fst c)) in Lk. apply (link_all M c [mk_instr OP_RET 0 0 0 0 0] []) in Lk.
  destruct Lk as [-> _]. rewrite app_nil_r. reflexivity.
Qed.
Theorem parentheses_idle fl text fuel fuel' p bin s bin' s' : plain_prog p ->
  (forall e, text (flat (full e)) = text (flat e)) ->
  compile fl text fuel (source_of p) = COk bin s -> compile fl text fuel' (source_of (full_prog p)) = COk bin' s' -> bin' = bin.
Proof.
  intros Pl ST H H'. apply compile_made in H; auto. apply compile_made in H'.
  - cut (made fl text (full_prog p) = made fl text p); [congruence|]. unfold made. cbn [full_prog sp_consts sp_fns].
    destruct (global_consts _ _ _) as [G s1| | |]; auto. rewrite sortf_full.
    rewrite (gfns_same fl text (map fn_of (sp_fns p))); auto. clear H H'.
    intros x. unfold find_fn. induction (sp_fns p) as [|f l IH]; auto. cbn [map List.find].
    change (fn_name (fn_of (full_func f))) with (sf_name f). change (fn_name (fn_of f)) with (sf_name f).
    destruct (String.eqb (sf_name f) x); auto.
  - destruct Pl as [Sm Pl]. split; auto. cbn [full_prog sp_fns]. intros f Hf. apply in_map_iff in Hf. destruct Hf as (g & <- & Hg).
    destruct (Pl g Hg) as [K HK]. exists K. now apply full_plain_func.
Qed.
