(** What the compiler makes of a whole program. *)
Require Import List Arith NArith ZArith Bool String Lia Permutation.
From Verif Require Import BytesLib VarModel InstrModel EngineModel CompModel CompSpec CompGen CompParse CompTree.
Import List ListNotations.
Open Scope N_scope.

Lemma some4 {A B C D} (a a' : A) (b b' : B) (c c' : C) (d d' : D) :
  Some (a, b, c, d) = Some (a', b', c', d') -> a = a' /\ b = b' /\ c = c' /\ d = d'.
Proof. intros H. repeat split; congruence. Qed.
Lemma some3 {A B C} (a a' : A) (b b' : B) (c c' : C) : Some (a, b, c) = Some (a', b', c') -> a = a' /\ b = b' /\ c = c'.
Proof. intros H. repeat split; congruence. Qed.
Ltac s4 H := apply some4 in H; destruct H as (<- & <- & <- & <-).
Ltac s3 H := apply some3 in H; destruct H as (<- & <- & <-).

(** *** Constants are only added *)
Definition grows {A} (K K' : list A) : Prop := exists t, K' = K ++ t.
Lemma grows_refl {A} (K : list A) : grows K K.
Proof. exists []. now rewrite app_nil_r. Qed.
Lemma grows_trans {A} (K1 K2 K3 : list A) : grows K1 K2 -> grows K2 K3 -> grows K1 K3.
Proof. intros [a ->] [b ->]. exists (a ++ b). now rewrite app_assoc. Qed.
Lemma grows_nth {A} (K K' : list A) n v : grows K K' -> nth_error K n = Some v -> nth_error K' n = Some v.
Proof. intros [t ->] H. rewrite nth_error_app1; auto. apply nth_error_Some. congruence. Qed.
Lemma grows_length {A} (K K' : list A) : grows K K' -> (List.length K <= List.length K')%nat.
Proof. intros [t ->]. rewrite app_length. lia. Qed.
Lemma kaddr_grows v K a K' : kaddr v K = (a, K') -> grows K K'.
Proof. unfold kaddr. destruct (const_pos v K); intros H; injection H as <- <-; [apply grows_refl|now exists [v]]. Qed.
Lemma gopt_grows fl op f r K op' f' r' K' : gopt fl op f r K = (op', f', r', K') -> grows K K'.
Proof.
  unfold gopt. destruct (_ && _); [|intros H; injection H as <- <- <- <-; apply grows_refl].
  destruct (nth_error K (N.to_nat r)) as [v|]; [|intros H; injection H as <- <- <- <-; apply grows_refl].
  destruct (pow2 v); [|intros H; injection H as <- <- <- <-; apply grows_refl].
  destruct (op =? OP_DIV); [intros H; injection H as <- <- <- <-; apply grows_refl|].
  destruct (kaddr _ K) as [a K1] eqn:E. intros H. injection H as <- <- <- <-. now apply kaddr_grows in E.
Qed.
Lemma gdefaults_grows l : forall d K c K', gdefaults d l K = (c, K') -> grows K K'.
Proof.
  induction l as [|[x v] l IH]; intros d K c K' H; cbn [gdefaults] in H.
  - injection H as <- <-. apply grows_refl.
  - destruct (match v with Some v => kaddr v K | None => (0, K) end) as [a K1] eqn:E.
    destruct (gdefaults (d + 1) l K1) as [c2 K2] eqn:E2. injection H as <- <-. apply IH in E2.
    eapply grows_trans; [|exact E2]. destruct v; [now apply kaddr_grows in E|injection E as <- <-; apply grows_refl].
Qed.
Section GROW.
  Variable fl : flags.
  Variable text : list node -> bytes.
  Variable fns : list fn.
  Notation gexp := (CompGen.gexp fl fns).
  Notation gstmt := (CompGen.gstmt fl text fns).
  Lemma gexps_grows G l : Forall (fun e => forall off K c a off' K', gexp G e off K = Some (c, a, off', K') -> grows K K') l ->
    forall off K c r off' K', gexps (gexp G) l off K = Some (c, r, off', K') -> grows K K'.
  Proof.
    induction 1 as [|e l He _ IH]; intros off K c r off' K' H; cbn [gexps] in H.
    - s4 H. apply grows_refl.
    - destruct (gexp G e off K) as [[[[c1 a1] off1] K1]|] eqn:E; [|discriminate].
      destruct (gexps (gexp G) l off1 K1) as [[[[c2 r2] off2] K2]|] eqn:E2; [|discriminate].
      s4 H. eapply grows_trans; eauto.
  Qed.
  Lemma gpicks_grows G l : Forall (fun e => forall off K c a off' K', gexp G e off K = Some (c, a, off', K') -> grows K K') l ->
    forall op d lhs off K c off' K', gpicks (gexp G) op d lhs l off K = Some (c, off', K') -> grows K K'.
  Proof.
    induction 1 as [|e l He _ IH]; intros op d lhs off K c off' K' H; cbn [gpicks] in H.
    - s3 H. apply grows_refl.
    - destruct (gexp G e off K) as [[[[c1 a1] off1] K1]|] eqn:E; [|discriminate].
      destruct (gpicks (gexp G) op d d l off1 K1) as [[[c2 off2] K2]|] eqn:E2; [|discriminate].
      s3 H. eapply grows_trans; eauto.
  Qed.
  Lemma gexp_grows G e : forall off K c a off' K', gexp G e off K = Some (c, a, off', K') -> grows K K'.
  Proof.
    induction e as [v|x|e IH|e IH|o a b IHa IHb|e IH|q a l IHa IHl|f l IHl] using exp_ind2; intros off K c a1 off' K' H;
      cbn [CompGen.gexp] in H.
    - destruct (kaddr (val_of v) K) as [a K1] eqn:E. s4 H. now apply kaddr_grows in E.
    - destruct (lookup_var x G); [|discriminate]. s4 H. apply grows_refl.
    - destruct (gexp G e off K) as [[[[c1 a2] off1] K1]|] eqn:E; [|discriminate]. s4 H. eauto.
    - destruct (gexp G e off K) as [[[[c1 a2] off1] K1]|] eqn:E; [|discriminate]. s4 H. eauto.
    - destruct (gexp G a off K) as [[[[c1 a2] off1] K1]|] eqn:E; [|discriminate]. destruct (is_shift o).
      + destruct (gexp G b (off1 + 1) K1) as [[[[c2 a3] off2] K2]|] eqn:E2; [|discriminate]. s4 H.
        eapply grows_trans; eauto.
      + destruct (gexp G b off1 K1) as [[[[c2 a3] off2] K2]|] eqn:E2; [|discriminate].
        destruct (gopt _ _ _ _ K2) as [[[op f] rhs] K3] eqn:E3. s4 H. apply gopt_grows in E3.
        eapply grows_trans; [eauto|]. eapply grows_trans; eauto.
    - eauto.
    - destruct l as [|e2 l]; [discriminate|]. destruct (gexp G a (off + 1) K) as [[[[c1 a2] off1] K1]|] eqn:E; [|discriminate].
      destruct (gpicks (gexp G) _ _ a2 (e2 :: l) off1 K1) as [[[c2 off2] K2]|] eqn:E2; [|discriminate]. s4 H.
      apply gpicks_grows in E2; auto. eapply grows_trans; eauto.
    - destruct (find_fn fns f) as [g|]; [|discriminate]. destruct (_ <? _)%nat; [discriminate|].
      destruct (gexps (gexp G) l off K) as [[[[c1 r] off1] K1]|] eqn:E; [|discriminate].
      destruct (gdefaults _ _ K1) as [c3 K2] eqn:E2. s4 H. apply gexps_grows in E; auto.
      apply gdefaults_grows in E2. eapply grows_trans; eauto.
  Qed.
  Definition sgrows (s : stmt) := forall G off K pos c D off' K', gstmt s G off K pos = Some (c, D, off', K') -> grows K K'.
  Lemma gstmts_grows l : Forall sgrows l -> forall G off K pos c D off' K',
    gstmts gstmt l G off K pos = Some (c, D, off', K') -> grows K K'.
  Proof.
    induction 1 as [|s l Hs _ IH]; intros G off K pos c D off' K' H.
    - s4 H. apply grows_refl.
    - rewrite gstmts_cons in H. destruct (gstmt s G off K pos) as [[[[c1 D1] off1] K1]|] eqn:E; [|discriminate].
      destruct (gstmts gstmt l _ off1 K1 _) as [[[[c2 D2] off2] K2]|] eqn:E2; [|discriminate]. s4 H.
      eapply grows_trans; eauto.
  Qed.
  Lemma declare_grows q x e G off K c D off' K' : declare fl fns q x e G off K = Some (c, D, off', K') -> grows K K'.
  Proof.
    unfold declare. destruct (gexp G e (off + 1) K) as [[[[c1 a] off1] K1]|] eqn:E; [|discriminate].
    intros H. s4 H. eauto using gexp_grows.
  Qed.
  Lemma gstmt_grows s : sgrows s.
  Proof.
    induction s as [x e|x e|x e|o x e|up q x|e|e|e|l IHl|c s e IHs IHe|c s IHs|i c q s IHi IHq IHs] using stmt_ind2;
      intros G off K pos cd D off' K' H; cbn [CompGen.gstmt] in H.
    - destruct e as [e|]; [now apply declare_grows in H|]. s4 H. apply grows_refl.
    - destruct (is_lit e) eqn:Le.
      + destruct e; try discriminate Le. destruct (kaddr _ K) as [a K1] eqn:E. s4 H. now apply kaddr_grows in E.
      + destruct e; try discriminate Le; now apply declare_grows in H.
    - destruct (lookup_var x G); [|discriminate]. destruct (v_isconst v); [discriminate|].
      destruct (gexp G e off K) as [[[[c1 a2] off1] K1]|] eqn:E; [|discriminate]. s4 H. eauto using gexp_grows.
    - destruct (lookup_var x G); [|discriminate].
      destruct (gexp G e off K) as [[[[c1 a2] off1] K1]|] eqn:E; [|discriminate].
      destruct (gopt _ _ _ _ K1) as [[[op f] rhs] K3] eqn:E3. s4 H. apply gopt_grows in E3.
      eapply grows_trans; eauto using gexp_grows.
    - destruct (lookup_var x G); [|discriminate]. destruct (v_isconst v); [discriminate|].
      destruct (kaddr _ K) as [a K1] eqn:E. apply kaddr_grows in E. destruct q; s4 H; auto.
    - destruct (gexp G e off K) as [[[[c1 a2] off1] K1]|] eqn:E; [|discriminate]. s4 H. eauto using gexp_grows.
    - destruct (gexp G e off K) as [[[[c1 a2] off1] K1]|] eqn:E; [|discriminate].
      destruct (kaddr _ K1) as [a K2] eqn:E2. apply kaddr_grows in E2. s4 H.
      eapply grows_trans; eauto using gexp_grows.
    - destruct e as [e|]; [|s4 H; apply grows_refl].
      destruct (gexp G e off K) as [[[[c1 a2] off1] K1]|] eqn:E; [|discriminate]. s4 H. eauto using gexp_grows.
    - change (match gstmts gstmt l G off K pos with Some (c, _, _, K1) => Some (c, [], off, K1) | None => None end = Some (cd, D, off', K')) in H.
      destruct (gstmts gstmt l G off K pos) as [[[[c1 D1] off1] K1]|] eqn:E; [|discriminate]. s4 H.
      eapply gstmts_grows; eauto.
    - destruct (gexp G c off K) as [[[[c1 a2] off1] K1]|] eqn:E; [|discriminate].
      destruct (gstmt s G off1 K1 _) as [[[[c2 D2] off2] K2]|] eqn:E2; [|discriminate].
      assert (grows K K2) by (eapply grows_trans; [eapply gexp_grows; eauto|eapply IHs; eauto]).
      destruct e as [e|]; [|s4 H; auto].
      destruct (gstmt e _ off2 K2 _) as [[[[c3 D3] off3] K3]|] eqn:E3; [|discriminate]. s4 H.
      eapply grows_trans; [eauto|]. eapply IHe; eauto.
    - destruct (gexp G c off K) as [[[[c1 a2] off1] K1]|] eqn:E; [|discriminate].
      destruct (gstmt s G off1 K1 _) as [[[[c2 D2] off2] K2]|] eqn:E2; [|discriminate]. s4 H.
      eapply grows_trans; [eapply gexp_grows; eauto|eapply IHs; eauto].
    - destruct (gstmts _ i G off K pos) as [[[[c0 D0] off0] K0]|] eqn:E0; [|discriminate].
      destruct (gexp _ c off0 K0) as [[[[c1 a2] off1] K1]|] eqn:E; [|discriminate].
      destruct (gstmt s _ off1 K1 _) as [[[[c2 D2] off2] K2]|] eqn:E2; [|discriminate].
      destruct (gstmts _ q _ off2 K2 _) as [[[[c3 D3] off3] K3]|] eqn:E3; [|discriminate]. s4 H.
      eapply grows_trans; [eapply gstmts_grows with (l := i); eauto|].
      eapply grows_trans; [eapply gexp_grows; eauto|]. eapply grows_trans; [eapply IHs; eauto|].
      eapply gstmts_grows with (l := q); eauto.
  Qed.
End GROW.

(** *** Functions *)
Fixpoint gargs {V} (l : list (ident * V)) (a : N) (acc : env_t) : env_t :=
  match l with [] => acc | (x, _) :: l => gargs l (a + 1) ((x, mk_var false a) :: acc) end.
Section FNS.
  Variable fl : flags.
  Variable text : list node -> bytes.
  Variable fns : list fn.
  Variable globals : env_t.
  Definition gfn (f : func) (K : list val) (pos : nat) : option (list ains * list val) :=
    match gstmts (gstmt fl text fns) (sf_body f) (gargs (sf_args f) (MEM_STACK + 1) [] ++ globals)
                 (1 + N.of_nat (List.length (sf_args f))) K (pos + 1) with
    | Some (c, _, _, K') =>
      let c0 := ins OP_COPY 0 MEM_STACK 0 0 :: c in
      Some (c0 ++ (if last_is_ret (map fst c0) then [] else [ins OP_RET 0 0 0 0]), K')
    | None => None
    end.
  Fixpoint gfns (l : list func) (K : list val) (pos : nat) : option (list ains * list (ident * N) * list val) :=
    match l with
    | [] => Some ([], [], K)
    | f :: l =>
      match gfn f K pos with
      | Some (c, K1) =>
        match gfns l K1 (pos + List.length c) with
        | Some (c2, M, K2) => Some (c ++ c2, (sf_name f, N.of_nat pos) :: M, K2)
        | None => None
        end
      | None => None
      end
    end.
  Lemma last_is_ret_app l i r : last_is_ret (l ++ i :: r) = last_is_ret (i :: r).
  Proof.
    unfold last_is_ret. rewrite rev_app_distr. cbn [rev]. rewrite <- app_assoc. destruct (rev r) as [|j t]; reflexivity.
  Qed.
  Lemma add_args_state l : forall a cd off V K L u s',
    add_args l a (state cd off V [] K L) = COk u s' -> s' = state cd off (gargs l a V) [] K L.
  Proof.
    induction l as [|[x v] l IH]; intros a cd off V K L u s' H; cbn [add_args] in H.
    - now ok1 H.
    - apply cbind_ok in H. destruct H as (u1 & s1 & H1 & H). apply add_variable_state in H1. subst s1. now apply IH in H.
  Qed.
  Lemma gargs_map {V W} (g : V -> W) (l : list (ident * V)) : forall a acc, gargs (map (fun p => (fst p, g (snd p))) l) a acc = gargs l a acc.
  Proof. induction l as [|[x v] l IH]; intros a acc; cbn [gargs map fst snd]; auto. Qed.

  Lemma fn_code_ok cc fuel f K0 cd fs K L pos s' : plain_func K0 f = true ->
    fn_code fl text fns globals cc fuel (fn_of f) (mk_cst cd fs K L) = COk pos s' ->
    exists c K', pos = List.length cd /\ gfn f K (List.length cd) = Some (c, K') /\
                 s' = mk_cst (cd ++ map fst c) [] K' (L ++ links_at (List.length cd) c).
  Proof.
    intros P H. unfold plain_func in P. repeat rewrite andb_true_iff in P. destruct P as (((P & _) & Ni) & _).
    unfold fn_code in H. unfold cbind at 1 in H. unfold here at 1 in H. cbn [c_code] in H.
    unfold cbind at 1 in H. unfold CompModel.set_frames at 1 in H. cbn [c_code c_consts c_links] in H.
    apply cbind_ok in H. destruct H as (u1 & s1 & H1 & H). apply add_args_state in H1. subst s1.
    cbn [fn_of fn_args fn_body] in H. rewrite gargs_map, map_length in H.
    assert (Fi : fn_init (fn_of f) = false) by (unfold fn_init, fn_of; cbn [fn_static fn_name orb]; now apply negb_true_iff in Ni).
    change (mk_fn (sf_name f) (map (fun a => (fst a, option_map val_of (snd a))) (sf_args f)) false (sf_const f) (TScope (map tree_of (sf_body f)))) with (fn_of f) in H.
    rewrite Fi in H. unfold cbind at 1 in H. unfold cret at 1 in H.
    unfold cbind at 1 in H. rewrite emit_after in H.
    apply cbind_ok in H. destruct H as (u2 & s2 & H2 & H).
    rewrite tree_scope in H2. unfold cbind at 1 in H2. unfold after in H2. rewrite push_state in H2.
    apply cbind_ok in H2. destruct H2 as (u3 & s3 & H3 & H2).
    assert (All : Forall (stree fl text fns globals cc fuel) (sf_body f)) by (apply Forall_forall; intros; apply stree_all).
    apply (strees fl text fns globals cc fuel (sf_body f) All K0) in H3; auto. destruct H3 as (c & D & off1 & K1 & G & ->).
    rewrite pop_after in H2. ok1 H2. rewrite scp_push in G. unfold scp in G. cbn [map concat f_vars f_off] in G. rewrite app_nil_r in G.
    rewrite app_length in G. cbn [List.length] in G.
    unfold cbind at 1 in H. unfold CompModel.set_frames at 1 in H. cbn [after state c_code c_consts c_links f_off f_vars] in H.
    apply cbind_ok in H. destruct H as (u4 & s4 & H4 & H). ok1 H. unfold gfn. rewrite G. cbv zeta.
    cbn [c_code] in H4.
    assert (Lr : last_is_ret ((cd ++ map fst [ins OP_COPY 0 MEM_STACK 0 0]) ++ map fst c) = last_is_ret (map fst (ins OP_COPY 0 MEM_STACK 0 0 :: c))).
    { cbn [map]. rewrite <- app_assoc. cbn [app]. apply last_is_ret_app. }
    change (instr * option ident)%type with ains in *. rewrite Lr in H4.
    eexists _, _. split; [reflexivity|]. split; [reflexivity|].
    match type of H4 with context [if ?b then _ else _] => remember b as b1 eqn:Eb end.
    match goal with |- context [if ?b then _ else _] => replace b with b1 by (rewrite Eb; reflexivity) end.
    clear Eb. destruct b1.
    - ok1 H4. f_equal.
      + rewrite app_nil_r. cbn [map]. rewrite <- app_assoc. reflexivity.
      + rewrite app_nil_r. cbn [links_at ins]. rewrite app_nil_r, app_length. cbn [map List.length]. now rewrite Nat.add_1_r.
    - unfold emit in H4. cbn [c_code c_frames c_consts c_links] in H4. ok1 H4. f_equal.
      + rewrite map_app. cbn [map ins fst app]. rewrite <- !app_assoc. reflexivity.
      + unfold ins at 2. cbn [links_at app]. rewrite links_at_app. cbn [links_at ins]. rewrite !app_nil_r, app_length. cbn [map List.length].
        now rewrite Nat.add_1_r.
  Qed.
  Lemma fns_code_ok fuel l : Forall (fun f => exists K0, plain_func K0 f = true) l -> forall cd fs K L M s',
    fns_code fl text fuel fns globals (map fn_of l) (mk_cst cd fs K L) = COk M s' ->
    exists c K' fs', gfns l K (List.length cd) = Some (c, M, K') /\ s' = mk_cst (cd ++ map fst c) fs' K' (L ++ links_at (List.length cd) c).
  Proof.
    induction 1 as [|f l [K0 Pf] _ IH]; intros cd fs K L M s' H; cbn [map fns_code] in H.
    - ok1 H. exists [], K, fs. cbn. now rewrite !app_nil_r.
    - apply cbind_ok in H. destruct H as (pos & s1 & H1 & H). apply (fn_code_ok _ _ _ K0) in H1; auto.
      destruct H1 as (c & K1 & -> & G & ->).
      apply cbind_ok in H. destruct H as (M1 & s2 & H1 & H). ok1 H. apply IH in H1. destruct H1 as (c2 & K2 & fs2 & G2 & ->).
      rewrite app_length, map_length in G2. change (instr * option ident)%type with ains in G2.
      eexists _, _, fs2. cbn [gfns]. rewrite G, G2. split; [reflexivity|].
      rewrite map_app, links_at_app, !app_assoc, app_length, map_length. reflexivity.
  Qed.
  (** each function and where it is *)
  Lemma gfn_grows f K pos c K' : gfn f K pos = Some (c, K') -> grows K K'.
  Proof.
    unfold gfn. destruct (gstmts _ _ _ _ _ _) as [[[[c1 D] off1] K1]|] eqn:E; [|discriminate]. intros H. injection H as <- <-.
    eapply gstmts_grows; [|exact E]. apply Forall_forall. intros. apply gstmt_grows.
  Qed.
  Lemma gfns_grows l : forall K pos C M K', gfns l K pos = Some (C, M, K') -> grows K K'.
  Proof.
    induction l as [|f l IH]; intros K pos C M K' H; cbn [gfns] in H.
    - s3 H. apply grows_refl.
    - destruct (gfn f K pos) as [[c K1]|] eqn:E; [|discriminate]. destruct (gfns l K1 _) as [[[c2 M2] K2]|] eqn:E2; [|discriminate].
      s3 H. eapply grows_trans; [eapply gfn_grows; eauto|eauto].
  Qed.
  Lemma gfns_each l : NoDup (map sf_name l) -> forall K pos C M K', gfns l K pos = Some (C, M, K') ->
    forall f, In f l -> exists pre c post K1 K2, C = pre ++ c ++ post /\ gfn f K1 (pos + List.length pre) = Some (c, K2) /\
                                              grows K K1 /\ grows K2 K' /\ lookup_var (sf_name f) M = Some (N.of_nat (pos + List.length pre)).
  Proof.
    induction l as [|g l IH]; intros Nd K pos C M K' H f Hf; [easy|]. cbn [gfns] in H. cbn [map] in Nd. apply NoDup_cons_iff in Nd. destruct Nd as [Ng Nd].
    destruct (gfn g K pos) as [[c K1]|] eqn:E; [|discriminate]. destruct (gfns l K1 _) as [[[c2 M2] K2]|] eqn:E2; [|discriminate].
    s3 H. destruct Hf as [->|Hf].
    - exists [], c, c2, K, K1. cbn [app List.length]. rewrite Nat.add_0_r. split; [reflexivity|]. split; [exact E|].
      split; [apply grows_refl|]. split; [eapply gfns_grows; eauto|]. cbn [lookup_var]. now rewrite String.eqb_refl.
    - destruct (IH Nd _ _ _ _ _ E2 f Hf) as (pre & c' & post & K3 & K4 & -> & G & Gr & Gr' & Lk).
      exists (c ++ pre), c', post, K3, K4. rewrite <- app_assoc, app_length, Nat.add_assoc. split; [reflexivity|]. split; [exact G|].
      split; [eapply grows_trans; [eapply gfn_grows; eauto|auto]|]. split; [auto|].
      cbn [lookup_var]. destruct (String.eqb_spec (sf_name f) (sf_name g)) as [Eq|]; auto.
      exfalso. apply Ng. rewrite <- Eq. now apply in_map.
  Qed.
End FNS.

(** *** Linking *)
Definition linked (M : list (ident * N)) (i : ains) : instr :=
  match i with (i, Some f) => match lookup_var f M with Some a => set_a a i | None => i end | (i, None) => i end.
Lemma link_all M c : forall pre post code,
  link M (links_at (List.length pre) c) (pre ++ map fst c ++ post) = Some code ->
  code = pre ++ map (linked M) c ++ post /\ Forall (fun i : ains => forall f, snd i = Some f -> lookup_var f M <> None) c.
Proof.
  induction c as [|[i [f|]] c IH]; intros pre post code H; cbn [links_at map app fst] in H.
  - injection H as <-. split; [reflexivity|constructor].
  - cbn [link] in H. destruct (lookup_var f M) as [a|] eqn:E; [|discriminate]. rewrite update_here in H.
    change (pre ++ set_a a i :: map fst c ++ post) with (pre ++ [set_a a i] ++ (map fst c ++ post)) in H. rewrite app_assoc in H.
    replace (S (List.length pre)) with (List.length (pre ++ [set_a a i])) in H by (rewrite app_length; cbn; lia).
    apply IH in H. destruct H as [-> H]. split.
    + cbn [map linked]. rewrite E, <- app_assoc. reflexivity.
    + constructor; auto. cbn. intros g Hg. injection Hg as <-. congruence.
  - change (pre ++ i :: map fst c ++ post) with (pre ++ [i] ++ (map fst c ++ post)) in H. rewrite app_assoc in H.
    replace (S (List.length pre)) with (List.length (pre ++ [i])) in H by (rewrite app_length; cbn; lia).
    apply IH in H. destruct H as [-> H]. split.
    + cbn [map linked]. rewrite <- app_assoc. reflexivity.
    + constructor; auto. cbn. congruence.
Qed.

(** *** Programs *)
Lemma insert_fn_In f l : forall g, In g (insert_fn f l) <-> g = f \/ In g l.
Proof.
  induction l as [|h l IH]; intros g; cbn [insert_fn].
  - cbn. intuition.
  - destruct (String.compare (fn_name f) (fn_name h)); cbn [In]; rewrite ?IH; cbn; intuition.
Qed.
Lemma insert_fn_perm f l : exists a b, l = a ++ b /\ insert_fn f l = a ++ f :: b.
Proof.
  induction l as [|h l IH]; cbn [insert_fn].
  - now exists [], [].
  - destruct IH as (a & b & E1 & E2).
    destruct (String.compare (fn_name f) (fn_name h)); [exists (h :: a), b|exists [], (h :: l)|exists (h :: a), b]; split; cbn; congruence.
Qed.
(** the sorted list, as functions of the source *)
Lemma sort_fns_of l : exists l', sort_fns (map fn_of l) = map fn_of l' /\ (forall f, In f l' <-> In f l) /\
  (NoDup (map sf_name l) -> NoDup (map sf_name l')).
Proof.
  induction l as [|f l (l' & E & I1 & N1)]; cbn [map sort_fns fold_right].
  - exists []. cbn. intuition.
  - unfold sort_fns in E. rewrite E. destruct (insert_fn_perm (fn_of f) (map fn_of l')) as (a & b & E1 & E2).
    apply map_eq_app in E1. destruct E1 as (a' & b' & -> & <- & <-).
    exists (a' ++ f :: b'). rewrite E2, map_app. split; [reflexivity|]. split.
    + intros g. rewrite in_app_iff. cbn [In]. rewrite <- I1, in_app_iff. intuition.
    + intros Nd. apply NoDup_cons_iff in Nd. destruct Nd as [Nf Nd]. specialize (N1 Nd).
      apply (Permutation_NoDup (l := map sf_name (f :: a' ++ b'))); [apply Permutation_map, Permutation_middle|].
      cbn [map]. constructor; auto. intros H. apply Nf. apply in_map_iff in H. destruct H as (g & Eg & Hg).
      apply in_map_iff. exists g. split; auto. now apply I1.
Qed.

Lemma Forall2_weaken {A B} (P Q : A -> B -> Prop) l r : (forall a b, P a b -> Q a b) -> Forall2 P l r -> Forall2 Q l r.
Proof. intros H. induction 1; constructor; auto. Qed.
Definition vals_of (v : val) : bool := match v with VNil | VTrue | VFalse | VUint _ => true | _ => false end.
Lemma compare_same v w : vals_of v = true -> compare v w = 0%Z -> w = v.
Proof.
  unfold compare. destruct v, w; cbn; intros; try discriminate; auto.
  unfold cmp_num in *. match goal with H : context [?a =? ?b] |- _ => destruct (N.eqb_spec a b) as [->|] end; auto.
  match goal with H : context [?a <? ?b] |- _ => destruct (a <? b) end; discriminate.
Qed.
Lemma const_pos_nth v K : forall n, const_pos v K = Some n -> exists w, nth_error K (N.to_nat n) = Some w /\ compare v w = 0%Z.
Proof.
  induction K as [|w K IH]; intros n H; cbn [const_pos] in H; [discriminate|].
  destruct (compare v w =? 0)%Z eqn:E.
  - injection H as <-. exists w. split; auto. now apply Z.eqb_eq.
  - destruct (const_pos v K) as [m|]; [|discriminate]. injection H as <-. destruct (IH m eq_refl) as (u & Hu & Eu).
    exists u. split; auto. rewrite N.add_1_r, N2Nat.inj_succ. exact Hu.
Qed.
Lemma kaddr_nth v K a K' : vals_of v = true -> kaddr v K = (a, K') -> nth_error K' (N.to_nat a) = Some v.
Proof.
  unfold kaddr. intros Hv. destruct (const_pos v K) as [n|] eqn:E; intros H; injection H as <- <-.
  - apply const_pos_nth in E. destruct E as (w & Hw & Ew). apply compare_same in Ew; auto. now subst.
  - rewrite Nat2N.id, nth_error_app2, Nat.sub_diag; auto.
Qed.
Lemma vals_of_val v : vals_of (val_of v) = true.
Proof. destruct v as [|[]|n]; reflexivity. Qed.

(** variables and the values they stand for *)
Definition glob_rel (K : list val) (g : ident * variable) (e : ident * (bool * value)) : Prop :=
  fst g = fst e /\ v_isconst (snd g) = true /\ fst (snd e) = true /\ small (snd (snd e)) = true /\
  nth_error K (N.to_nat (v_addr (snd g))) = Some (val_of (snd (snd e))).
Lemma glob_rel_grows K K' g e : grows K K' -> glob_rel K g e -> glob_rel K' g e.
Proof. intros Gr (A & B & C & D & E). repeat split; auto. eapply grows_nth; eauto. Qed.
Lemma global_consts_ok l : forallb (fun c => small (snd c)) l = true -> forall acc E cd fs K L G s',
  Forall2 (glob_rel K) acc E ->
  global_consts (map (fun c => (fst c, val_of (snd c))) l) acc (mk_cst cd fs K L) = COk G s' ->
  exists K', s' = mk_cst cd fs K' L /\ grows K K' /\
             Forall2 (glob_rel K') G (rev (map (fun c => (fst c, (true, snd c))) l) ++ E).
Proof.
  induction l as [|[x v] l IH]; intros Sm acc E cd fs K L G s' F H; cbn [map global_consts fst snd] in H.
  - ok1 H. exists K. split; auto. split; [apply grows_refl|exact F].
  - cbn [forallb snd] in Sm. apply andb_true_iff in Sm. destruct Sm as [Sv Sm].
    destruct (lookup_var x acc); [discriminate|]. apply cbind_ok in H. destruct H as (a & s1 & H1 & H).
    assert (Hk : exists K1, kaddr (val_of v) K = (a, K1) /\ s1 = mk_cst cd fs K1 L).
    { unfold get_const in H1. cbn [c_consts c_code c_frames c_links] in H1. unfold kaddr.
      destruct (const_pos (val_of v) K); ok1 H1; eauto. }
    destruct Hk as (K1 & Hk & ->). pose proof (kaddr_grows _ _ _ _ Hk) as Gr.
    apply (IH Sm _ ((x, (true, v)) :: E)) in H.
    + destruct H as (K' & -> & Gr' & F'). exists K'. split; auto. split; [eapply grows_trans; eauto|].
      cbn [map rev fst snd]. rewrite <- app_assoc. exact F'.
    + constructor.
      * repeat split; cbn [fst snd v_isconst v_addr]; auto. eapply kaddr_nth; eauto. apply vals_of_val.
      * refine (Forall2_weaken _ _ _ _ _ F); intros; eapply glob_rel_grows; eauto.
Qed.
Lemma no_dups_NoDup l : no_dups l = true -> NoDup l.
Proof.
  induction l as [|a l IH]; cbn [no_dups]; [constructor|]. intros H. apply andb_true_iff in H. destruct H as [H1 H2].
  constructor; auto. intros Hi. apply negb_true_iff in H1. unfold is_in in H1.
  assert (existsb (String.eqb a) l = true) by (apply existsb_exists; exists a; split; auto; apply String.eqb_refl). congruence.
Qed.

Lemma compile_inv fl text fuel p bin s : plain_prog p -> compile fl text fuel (source_of p) = COk bin s ->
  NoDup (map sf_name (sp_fns p)) /\
  exists G C,
    b_code bin = map (linked (b_methods bin)) C /\
    Forall (fun i : ains => forall f, snd i = Some f -> lookup_var f (b_methods bin) <> None) C /\
    Forall2 (glob_rel (b_consts bin)) G (CompSpec.globals p) /\
    nth_error (b_consts bin) 0 = Some VNil /\
    forall f, In f (sp_fns p) -> exists pre c post K1 K2,
      C = pre ++ c ++ post /\ gfn fl text (map fn_of (sp_fns p)) G f K1 (List.length pre) = Some (c, K2) /\
      grows K2 (b_consts bin) /\ lookup_var (sf_name f) (b_methods bin) = Some (N.of_nat (List.length pre)).
Proof.
  intros [Sm Pl] H. unfold compile in H. cbn [source_of p_fns p_consts] in H.
  destruct (_ && _) eqn:Ok; [|discriminate]. apply andb_true_iff in Ok. destruct Ok as [Nd _].
  apply no_dups_NoDup in Nd. rewrite map_map in Nd. cbn [fn_of fn_name] in Nd. split; auto.
  apply cbind_ok in H. destruct H as (G & s1 & H1 & H).
  apply (global_consts_ok _ Sm [] []) in H1; [|constructor]. destruct H1 as (K1 & -> & Gr & F). rewrite app_nil_r in F.
  apply cbind_ok in H. destruct H as (u & s2 & H2 & H). unfold emit in H2. cbn [c_code c_frames c_consts c_links app] in H2. ok1 H2.
  apply cbind_ok in H. destruct H as (M & s3 & H3 & H).
  destruct (sort_fns_of (sp_fns p)) as (l' & El & Il & Nl). rewrite El in H3.
  apply fns_code_ok in H3; [|apply Forall_forall; intros f Hf; apply Pl, Il, Hf].
  destruct H3 as (c & K2 & fs2 & Gf & ->). cbn [List.length app] in *. cbn [c_links c_code c_consts] in H.
  destruct (link M _ _) as [code|] eqn:Lk; [|discriminate]. ok1 H. cbn [b_code b_methods b_consts].
  change 1%nat with (List.length [mk_instr OP_RET 0 0 0 0 0]) in Lk.
  rewrite <- (app_nil_r (map fst c)) in Lk. apply (link_all M c [mk_instr OP_RET 0 0 0 0 0] []) in Lk.
  destruct Lk as [-> Rs]. rewrite app_nil_r.
  exists G, (ins OP_RET 0 0 0 0 :: c). split; [reflexivity|]. split; [constructor; [cbn; congruence|exact Rs]|].
  pose proof (gfns_grows _ _ _ _ _ _ _ _ _ _ Gf) as Gr2. split.
  { refine (Forall2_weaken _ _ _ _ _ F); intros; eapply glob_rel_grows; eauto. }
  split; [apply (grows_nth [VNil]); [eapply grows_trans; eauto|reflexivity]|].
  intros f Hf. apply Il in Hf. destruct (gfns_each _ _ _ _ _ (Nl Nd) _ _ _ _ _ Gf f Hf) as (pre & c' & post & K3 & K4 & -> & Gc & _ & Gr4 & Lf).
  exists (ins OP_RET 0 0 0 0 :: pre), c', post, K3, K4. cbn [List.length app]. repeat split; auto.
Qed.
