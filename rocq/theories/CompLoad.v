(** A compiled contract is loaded and called by the node. *)
Require Import List Arith NArith ZArith Bool String Lia.
From Verif Require Import BytesLib OrdLib VarModel InstrModel EngineModel EngineProofs EngineUpper ExecModel ExecProofs ExecFacts ExecProps
  CompModel CompSpec CompGen CompParse CompTree CompLink CompVm CompRun CompStatic CompSim.
Import List ListNotations.
Open Scope N_scope.

(** *** Which values are among the constants *)
Definition kind (v : val) : Prop := match v with VNil | VTrue | VFalse | VUint _ | VString _ => True | _ => False end.
Lemma kind_of v : kind (val_of v). Proof. destruct v as [|[]|]; exact I. Qed.
Definition keeps (K K' : list val) : Prop := Forall kind K -> Forall kind K'.
Lemma keeps_refl K : keeps K K. Proof. intros H. exact H. Qed.
Lemma keeps_trans K1 K2 K3 : keeps K1 K2 -> keeps K2 K3 -> keeps K1 K3. Proof. unfold keeps. auto. Qed.
Lemma kaddr_keeps v K a K' : kind v -> kaddr v K = (a, K') -> keeps K K'.
Proof.
  intros Hv. unfold kaddr. destruct (const_pos v K); intros H; injection H as <- <-; [apply keeps_refl|]. intros F. apply Forall_app. auto.
Qed.
Lemma gopt_keeps fl op f r K op' f' r' K' : gopt fl op f r K = (op', f', r', K') -> keeps K K'.
Proof.
  unfold gopt. destruct (_ && _); [|intros H; injection H as <- <- <- <-; apply keeps_refl].
  destruct (nth_error K (N.to_nat r)) as [v|]; [|intros H; injection H as <- <- <- <-; apply keeps_refl].
  destruct (pow2 v); [|intros H; injection H as <- <- <- <-; apply keeps_refl].
  destruct (op =? OP_DIV); [intros H; injection H as <- <- <- <-; apply keeps_refl|].
  destruct (kaddr _ K) as [a K1] eqn:E. intros H. injection H as <- <- <- <-. apply kaddr_keeps in E; [exact E|exact I].
Qed.
Definition args_kind (l : list (ident * option val)) : Prop := Forall (fun a => match snd a with Some v => kind v | None => True end) l.
Lemma gdefaults_keeps l : args_kind l -> forall d K c K', gdefaults d l K = (c, K') -> keeps K K'.
Proof.
  induction 1 as [|[x v] l Hv _ IH]; intros d K c K' H; cbn [gdefaults] in H.
  - injection H as <- <-. apply keeps_refl.
  - destruct (match v with Some v => kaddr v K | None => (0, K) end) as [a K1] eqn:E.
    destruct (gdefaults (d + 1) l K1) as [c2 K2] eqn:E2. injection H as <- <-. apply IH in E2.
    eapply keeps_trans; [|exact E2]. destruct v; [now apply kaddr_keeps in E|injection E as <- <-; apply keeps_refl].
Qed.
Section KEEP.
  Variable fl : flags.
  Variable text : list node -> bytes.
  Variable fns : list fn.
  Hypothesis Hk : Forall (fun f => args_kind (fn_args f)) fns.
  Notation gexp := (CompGen.gexp fl fns).
  Notation gstmt := (CompGen.gstmt fl text fns).
  Lemma gexps_keeps G l : Forall (fun e => forall off K c a off' K', gexp G e off K = Some (c, a, off', K') -> keeps K K') l ->
    forall off K c r off' K', gexps (gexp G) l off K = Some (c, r, off', K') -> keeps K K'.
  Proof.
    induction 1 as [|e l He _ IH]; intros off K c r off' K' H; cbn [gexps] in H.
    - s4 H. apply keeps_refl.
    - destruct (gexp G e off K) as [[[[c1 a1] off1] K1]|] eqn:E; [|discriminate].
      destruct (gexps (gexp G) l off1 K1) as [[[[c2 r2] off2] K2]|] eqn:E2; [|discriminate].
      s4 H. eapply keeps_trans; eauto.
  Qed.
  Lemma gpicks_keeps G l : Forall (fun e => forall off K c a off' K', gexp G e off K = Some (c, a, off', K') -> keeps K K') l ->
    forall op d lhs off K c off' K', gpicks (gexp G) op d lhs l off K = Some (c, off', K') -> keeps K K'.
  Proof.
    induction 1 as [|e l He _ IH]; intros op d lhs off K c off' K' H; cbn [gpicks] in H.
    - s3 H. apply keeps_refl.
    - destruct (gexp G e off K) as [[[[c1 a1] off1] K1]|] eqn:E; [|discriminate].
      destruct (gpicks (gexp G) op d d l off1 K1) as [[[c2 off2] K2]|] eqn:E2; [|discriminate].
      s3 H. eapply keeps_trans; eauto.
  Qed.
  Lemma gexp_keeps G e : forall off K c a off' K', gexp G e off K = Some (c, a, off', K') -> keeps K K'.
  Proof.
    induction e as [v|x|e IH|e IH|o a b IHa IHb|e IH|q a l IHa IHl|f l IHl] using exp_ind2; intros off K c a1 off' K' H;
      cbn [CompGen.gexp] in H.
    - destruct (kaddr (val_of v) K) as [a K1] eqn:E. s4 H. apply kaddr_keeps in E; auto using kind_of.
    - destruct (lookup_var x G); [|discriminate]. s4 H. apply keeps_refl.
    - destruct (gexp G e off K) as [[[[c1 a2] off1] K1]|] eqn:E; [|discriminate]. s4 H. eauto.
    - destruct (gexp G e off K) as [[[[c1 a2] off1] K1]|] eqn:E; [|discriminate]. s4 H. eauto.
    - destruct (gexp G a off K) as [[[[c1 a2] off1] K1]|] eqn:E; [|discriminate]. destruct (is_shift o).
      + destruct (gexp G b (off1 + 1) K1) as [[[[c2 a3] off2] K2]|] eqn:E2; [|discriminate]. s4 H.
        eapply keeps_trans; eauto.
      + destruct (gexp G b off1 K1) as [[[[c2 a3] off2] K2]|] eqn:E2; [|discriminate].
        destruct (gopt _ _ _ _ K2) as [[[op f] rhs] K3] eqn:E3. s4 H. apply gopt_keeps in E3.
        eapply keeps_trans; [eauto|]. eapply keeps_trans; eauto.
    - eauto.
    - destruct l as [|e2 l]; [discriminate|]. destruct (gexp G a (off + 1) K) as [[[[c1 a2] off1] K1]|] eqn:E; [|discriminate].
      destruct (gpicks (gexp G) _ _ a2 (e2 :: l) off1 K1) as [[[c2 off2] K2]|] eqn:E2; [|discriminate]. s4 H.
      apply gpicks_keeps in E2; auto. eapply keeps_trans; eauto.
    - destruct (find_fn fns f) as [g|] eqn:Eg; [|discriminate]. destruct (_ <? _)%nat; [discriminate|].
      destruct (gexps (gexp G) l off K) as [[[[c1 r] off1] K1]|] eqn:E; [|discriminate].
      destruct (gdefaults _ _ K1) as [c3 K2] eqn:E2. s4 H. apply gexps_keeps in E; auto.
      apply gdefaults_keeps in E2; [|unfold find_fn in Eg; apply find_some in Eg; destruct Eg as [Eg _]; rewrite Forall_forall in Hk; apply Hk in Eg; unfold args_kind in *; rewrite Forall_forall in *; intros z Hz; apply Eg; revert Hz; generalize (List.length l); generalize (fn_args g); clear; intros m k; revert m; induction k as [|k IHk]; intros [|y m] Hz; cbn [skipn] in Hz; auto; right; auto]. eapply keeps_trans; eauto.
  Qed.
  Definition skeeps (s : stmt) := forall G off K pos c D off' K', gstmt s G off K pos = Some (c, D, off', K') -> keeps K K'.
  Lemma gstmts_keeps l : Forall skeeps l -> forall G off K pos c D off' K',
    gstmts gstmt l G off K pos = Some (c, D, off', K') -> keeps K K'.
  Proof.
    induction 1 as [|s l Hs _ IH]; intros G off K pos c D off' K' H.
    - s4 H. apply keeps_refl.
    - rewrite gstmts_cons in H. destruct (gstmt s G off K pos) as [[[[c1 D1] off1] K1]|] eqn:E; [|discriminate].
      destruct (gstmts gstmt l _ off1 K1 _) as [[[[c2 D2] off2] K2]|] eqn:E2; [|discriminate]. s4 H.
      eapply keeps_trans; eauto.
  Qed.
  Lemma declare_keeps q x e G off K c D off' K' : declare fl fns q x e G off K = Some (c, D, off', K') -> keeps K K'.
  Proof.
    unfold declare. destruct (gexp G e (off + 1) K) as [[[[c1 a] off1] K1]|] eqn:E; [|discriminate].
    intros H. s4 H. eauto using gexp_keeps.
  Qed.
  Lemma gstmt_keeps s : skeeps s.
  Proof.
    induction s as [x e|x e|x e|o x e|up q x|e|e|e|l IHl|c s e IHs IHe|c s IHs|i c q s IHi IHq IHs] using stmt_ind2;
      intros G off K pos cd D off' K' H; cbn [CompGen.gstmt] in H.
    - destruct e as [e|]; [now apply declare_keeps in H|]. s4 H. apply keeps_refl.
    - destruct (is_lit e) eqn:Le.
      + destruct e; try discriminate Le. destruct (kaddr _ K) as [a K1] eqn:E. s4 H. apply kaddr_keeps in E; auto using kind_of.
      + destruct e; try discriminate Le; now apply declare_keeps in H.
    - destruct (lookup_var x G); [|discriminate]. destruct (v_isconst v); [discriminate|].
      destruct (gexp G e off K) as [[[[c1 a2] off1] K1]|] eqn:E; [|discriminate]. s4 H. eauto using gexp_keeps.
    - destruct (lookup_var x G); [|discriminate].
      destruct (gexp G e off K) as [[[[c1 a2] off1] K1]|] eqn:E; [|discriminate].
      destruct (gopt _ _ _ _ K1) as [[[op f] rhs] K3] eqn:E3. s4 H. apply gopt_keeps in E3.
      eapply keeps_trans; eauto using gexp_keeps.
    - destruct (lookup_var x G); [|discriminate]. destruct (v_isconst v); [discriminate|].
      destruct (kaddr _ K) as [a K1] eqn:E. apply kaddr_keeps in E; [|exact I]. destruct q; s4 H; auto.
    - destruct (gexp G e off K) as [[[[c1 a2] off1] K1]|] eqn:E; [|discriminate]. s4 H. eauto using gexp_keeps.
    - destruct (gexp G e off K) as [[[[c1 a2] off1] K1]|] eqn:E; [|discriminate].
      destruct (kaddr _ K1) as [a K2] eqn:E2. apply kaddr_keeps in E2; [|exact I]. s4 H.
      eapply keeps_trans; eauto using gexp_keeps.
    - destruct e as [e|]; [|s4 H; apply keeps_refl].
      destruct (gexp G e off K) as [[[[c1 a2] off1] K1]|] eqn:E; [|discriminate]. s4 H. eauto using gexp_keeps.
    - change (match gstmts gstmt l G off K pos with Some (c, _, _, K1) => Some (c, [], off, K1) | None => None end = Some (cd, D, off', K')) in H.
      destruct (gstmts gstmt l G off K pos) as [[[[c1 D1] off1] K1]|] eqn:E; [|discriminate]. s4 H.
      eapply gstmts_keeps; eauto.
    - destruct (gexp G c off K) as [[[[c1 a2] off1] K1]|] eqn:E; [|discriminate].
      destruct (gstmt s G off1 K1 _) as [[[[c2 D2] off2] K2]|] eqn:E2; [|discriminate].
      assert (keeps K K2) by (eapply keeps_trans; [eapply gexp_keeps; eauto|eapply IHs; eauto]).
      destruct e as [e|]; [|s4 H; auto].
      destruct (gstmt e _ off2 K2 _) as [[[[c3 D3] off3] K3]|] eqn:E3; [|discriminate]. s4 H.
      eapply keeps_trans; [eauto|]. eapply IHe; eauto.
    - destruct (gexp G c off K) as [[[[c1 a2] off1] K1]|] eqn:E; [|discriminate].
      destruct (gstmt s G off1 K1 _) as [[[[c2 D2] off2] K2]|] eqn:E2; [|discriminate]. s4 H.
      eapply keeps_trans; [eapply gexp_keeps; eauto|eapply IHs; eauto].
    - destruct (gstmts _ i G off K pos) as [[[[c0 D0] off0] K0]|] eqn:E0; [|discriminate].
      destruct (gexp _ c off0 K0) as [[[[c1 a2] off1] K1]|] eqn:E; [|discriminate].
      destruct (gstmt s _ off1 K1 _) as [[[[c2 D2] off2] K2]|] eqn:E2; [|discriminate].
      destruct (gstmts _ q _ off2 K2 _) as [[[[c3 D3] off3] K3]|] eqn:E3; [|discriminate]. s4 H.
      eapply keeps_trans; [eapply gstmts_keeps with (l := i); eauto|].
      eapply keeps_trans; [eapply gexp_keeps; eauto|]. eapply keeps_trans; [eapply IHs; eauto|].
      eapply gstmts_keeps with (l := q); eauto.
  Qed.
  Lemma gfn_keeps globals f K pos c K' : gfn fl text fns globals f K pos = Some (c, K') -> keeps K K'.
  Proof.
    unfold gfn. destruct (gstmts _ _ _ _ _ _) as [[[[c1 D] off1] K1]|] eqn:E; [|discriminate]. intros H. injection H as <- <-.
    eapply gstmts_keeps; [|exact E]. apply Forall_forall. intros. apply gstmt_keeps.
  Qed.
  Lemma gfns_keeps globals l : forall K pos C M K', gfns fl text fns globals l K pos = Some (C, M, K') -> keeps K K'.
  Proof.
    induction l as [|f l IH]; intros K pos C M K' H; cbn [gfns] in H.
    - s3 H. apply keeps_refl.
    - destruct (gfn fl text fns globals f K pos) as [[c K1]|] eqn:E; [|discriminate]. destruct (gfns fl text fns globals l K1 _) as [[[c2 M2] K2]|] eqn:E2; [|discriminate].
      s3 H. eapply keeps_trans; [eapply gfn_keeps; eauto|eauto].
  Qed.
End KEEP.
Lemma global_consts_kind l : forall acc cd fs K L G s', global_consts (map (fun c => (fst c, val_of (snd c))) l) acc (mk_cst cd fs K L) = COk G s' ->
  keeps K (c_consts s').
Proof.
  induction l as [|[x v] l IH]; intros acc cd fs K L G s' H; cbn [map global_consts fst snd] in H; [ok1 H; apply keeps_refl|].
  destruct (lookup_var x acc); [discriminate|]. apply cbind_ok in H. destruct H as (a & s1 & H1 & H).
  assert (Hk : exists K1, kaddr (val_of v) K = (a, K1) /\ s1 = mk_cst cd fs K1 L).
  { unfold get_const in H1. cbn [c_consts c_code c_frames c_links] in H1. unfold kaddr. destruct (const_pos (val_of v) K); ok1 H1; eauto. }
  destruct Hk as (K1 & Hk & ->). apply kaddr_keeps in Hk; [|apply kind_of]. eapply keeps_trans; [exact Hk|]. eapply IH; eauto.
Qed.
Lemma compile_kind fl text fuel p bin s : plain_prog p -> compile fl text fuel (source_of p) = COk bin s -> Forall kind (b_consts bin).
Proof.
  intros [Sm Pl] H. unfold compile in H. cbn [source_of p_fns p_consts] in H. destruct (_ && _) eqn:Ok; [|discriminate].
  apply cbind_ok in H. destruct H as (G & s1 & H1 & H). pose proof H1 as H1'. apply global_consts_kind in H1'.
  apply (global_consts_ok _ Sm [] []) in H1; [|constructor]. destruct H1 as (K1 & -> & Gr & F).
  apply cbind_ok in H. destruct H as (u & s2 & H2 & H). unfold emit in H2. cbn [c_code c_frames c_consts c_links app] in H2. ok1 H2.
  apply cbind_ok in H. destruct H as (M & s3 & H3 & H).
  destruct (sort_fns_of (sp_fns p)) as (l' & El & Il & Nl). rewrite El in H3.
  apply fns_code_ok in H3; [|apply Forall_forall; intros f Hf; apply Pl, Il, Hf].
  destruct H3 as (c & K2 & fs2 & Gf & ->). cbn [c_links c_code c_consts] in H.
  destruct (link M _ _) as [code|] eqn:Lk; [|discriminate]. ok1 H. cbn [b_consts].
  apply gfns_keeps in Gf.
  - apply Gf, H1'. cbn [c_consts]. constructor; [exact I|constructor].
  - apply Forall_forall. intros g Hg. apply in_map_iff in Hg. destruct Hg as (f & <- & _). unfold args_kind. cbn [fn_of fn_args].
    apply Forall_forall. intros a Ha. apply in_map_iff in Ha. destruct Ha as (b & <- & _). cbn [snd]. destruct (snd b); [apply kind_of|exact I].
Qed.

(** *** Loading *)
Section LOAD.
  Variable bk : backend.
  Definition base (s : st) := (s_frames s, s_version s, s_world s, s_limit s, (s_init s, s_code s)).
  Definition sets (s : st) (a : N) (v : val) (s' : st) : Prop :=
    base s' = base s /\ (forall b, b <> a -> cell s' (LMem b) = cell s (LMem b)) /\
    exists o, cell s' (LMem a) = Some o /\ f_const (o_fl o) = false /\ f_deleted (o_fl o) = false /\ o_val o = v.
  Definition no_ref (v : val) : Prop := match v with VRef _ | VArray _ _ | VMap _ => False | _ => True end.
  Lemma assign_loc_new s a v : cell s (LMem a) = None -> no_ref v -> val_bytes v <= MAX_VALUE_BYTES ->
    exists s', assign_loc bk (LMem a) v s = Ok tt s' /\ sets s a v s'.
  Proof.
    intros C Hv Hb. unfold assign_loc. erewrite bind_eq by reflexivity. rewrite C. erewrite bind_eq by reflexivity.
    replace (MAX_VALUE_BYTES <? val_bytes v) with false by (symmetry; apply N.ltb_ge; exact Hb). erewrite bind_eq by reflexivity. erewrite bind_eq by reflexivity.
    erewrite bind_eq by reflexivity.
    destruct v; try contradiction; (eexists; split; [reflexivity|]; split; [reflexivity|]; split;
      [intros b Hn; rewrite cell_put_other by congruence; reflexivity|eexists; split; [apply cell_put_same|]; split; [reflexivity|]; split; reflexivity]).
  Qed.
  Lemma load_new s a : cell s (LMem a) = None -> a < MEM_STATIC -> load_for_write bk a s = Ok tt s.
  Proof.
    intros C L. unfold load_for_write. erewrite bind_eq by reflexivity. rewrite C.
    replace (MEM_STATIC <=? a) with false by (symmetry; apply N.leb_gt; exact L). reflexivity.
  Qed.
  Lemma init_new s a : s_init s && (a <? MEM_EXTERN) = false -> check_init a s = Ok tt s.
  Proof. intros H. unfold check_init. erewrite bind_eq by reflexivity. rewrite H. reflexivity. Qed.
  Lemma assign_new s a v : cell s (LMem a) = None -> s_init s && (a <? MEM_EXTERN) = false -> a < MEM_STATIC -> no_ref v -> val_bytes v <= MAX_VALUE_BYTES ->
    exists s', EngineModel.assign bk a v s = Ok tt s' /\ sets s a v s'.
  Proof.
    intros C Hi L Hv Hb. destruct (assign_loc_new s a v C Hv Hb) as (s' & E & St). exists s'. split; [|exact St].
    unfold EngineModel.assign. erewrite bind_eq by (now apply init_new). erewrite bind_eq by (now apply load_new). destruct v; try contradiction; exact E.
  Qed.
  Lemma write_new s a v : cell s (LMem a) = None -> s_init s && (a <? MEM_EXTERN) = false -> a < MEM_STATIC -> no_ref v -> val_bytes v <= MAX_VALUE_BYTES ->
    exists s', write bk a (STmp v) s = Ok tt s' /\ sets s a v s'.
  Proof.
    intros C Hi L Hv Hb. destruct (assign_loc_new s a v C Hv Hb) as (s' & E & St). exists s'. split; [|exact St].
    unfold write. erewrite bind_eq by (now apply init_new). erewrite bind_eq by (now apply load_new).
    unfold write_gen. erewrite bind_eq by reflexivity. cbn [ref_loc o_fl f_deleted no_fl o_val]. erewrite bind_eq by reflexivity. rewrite C.
    destruct v; try contradiction; exact E.
  Qed.
  (** [lo <= b < hi] is empty *)
  Definition empty (lo hi : N) (s : st) : Prop := forall b, lo <= b < hi -> cell s (LMem b) = None.
  Lemma constants_loaded l : Forall kind l -> Forall (fun v => val_bytes v <= MAX_VALUE_BYTES) l -> forall a s,
    s_init s = false -> a + N.of_nat (List.length l) <= MEM_EXTERN -> empty a MEM_STATIC s ->
    exists s', load_constants bk l a s = Ok tt s' /\ base s' = base s /\ empty (a + N.of_nat (List.length l)) MEM_STATIC s' /\
               (forall b, b < a -> cell s' (LMem b) = cell s (LMem b)) /\
               forall n v, nth_error l n = Some v -> holds s' (a + N.of_nat n) v.
  Proof.
    assert (EE : MEM_EXTERN < MEM_STATIC) by reflexivity.
    induction 1 as [|v l Hv Hl IH]; intros Hs a s Hi Lb Em; cbn [load_constants List.length].
    - exists s. split; [reflexivity|]. split; [reflexivity|]. split; [|split; [reflexivity|intros [|n]; discriminate]]. rewrite N.add_0_r. exact Em.
    - inversion_clear Hs as [|? ? Hb Hs']. cbn [List.length] in Lb.
      destruct (assign_new s a v) as (s1 & E1 & B1 & O1 & o & C1 & _ & D1 & V1); auto.
      { apply Em. lia. } { now rewrite Hi. } { lia. } { destruct v; try contradiction; exact I. }
      assert (Hi1 : s_init s1 = false) by (unfold base in B1; congruence).
      destruct (IH Hs' (a + 1) s1 Hi1) as (s2 & E2 & B2 & M2 & O2 & H2); [lia| |].
      { intros b Hb2. rewrite O1 by lia. apply Em. lia. }
      exists s2. split; [erewrite bind_eq by exact E1; exact E2|]. split; [congruence|]. split; [|split].
      + replace (a + N.of_nat (S (List.length l))) with (a + 1 + N.of_nat (List.length l)) by lia. exact M2.
      + intros b Hb2. rewrite O2 by lia. apply O1. lia.
      + intros [|n] w Hn; cbn [nth_error] in Hn.
        * injection Hn as <-. rewrite N.add_0_r. exists o. rewrite O2 by lia. auto.
        * specialize (H2 n w Hn). replace (a + N.of_nat (S n)) with (a + 1 + N.of_nat n) by lia. exact H2.
  Qed.
  Lemma binary_loaded KF code s : Forall kind KF -> Forall (fun v => val_bytes v <= MAX_VALUE_BYTES) KF -> N.of_nat (List.length KF) < MEM_EXTERN ->
    s_init s = false -> empty 0 MEM_STATIC s ->
    exists s', (load_binary bk (Some KF) (Some code) s = Ok tt s' \/ (load_binary bk (Some KF) (Some code) s = Throw s' /\ overrun s')) /\
               base s' = (s_frames s, s_version s, s_world s, s_limit s, (true, code)) /\
               empty MEM_EXTERN MEM_STATIC s' /\ forall n v, nth_error KF n = Some v -> holds s' (N.of_nat n) v.
  Proof.
    intros Hk Hs Lk Hi Em. destruct (constants_loaded KF Hk Hs 0 s Hi ltac:(lia) Em) as (s1 & E1 & B1 & M1 & _ & H1).
    set (s2 := set_init true (set_keys (s_keys s1 ++ map (fun e => (o_val (snd e), fst e))
        (filter (fun e => (1 <=? fst e) && (fst e <? MEM_EXTERN) && (val_bytes (o_val (snd e)) <=? MAX_KEY_BYTES)) (s_mem s1))) (set_code code s1))).
    assert (E2 : load_binary bk (Some KF) (Some code) s = check_gas s2).
    { unfold load_binary. erewrite bind_eq by reflexivity. replace (MEM_EXTERN <=? N.of_nat (length KF)) with false by (symmetry; apply N.leb_gt; exact Lk).
      erewrite bind_eq by reflexivity. erewrite bind_eq by exact E1. erewrite bind_eq by reflexivity. erewrite bind_eq by reflexivity.
      assert (I1 : s_init s1 = false) by (unfold base in B1; congruence).
      unfold init. unfold bind at 1 2. unfold EngineModel.get at 1. cbn [s_init set_code]. rewrite I1. reflexivity. }
    assert (B2 : base s2 = (s_frames s, s_version s, s_world s, s_limit s, (true, code))) by (unfold base in *; cbn; congruence).
    assert (M2 : empty MEM_EXTERN MEM_STATIC s2) by (intros b Hb; apply M1; lia).
    assert (H2 : forall n v, nth_error KF n = Some v -> holds s2 (N.of_nat n) v) by exact H1.
    unfold check_gas in E2. destruct (s_limit s2 <? s_gas s2) eqn:G.
    - exists (set_error TXFEE_OVERRUN s2). split; [|auto]. right. split; [exact E2|]. now apply N.ltb_lt in G.
    - exists s2. auto.
  Qed.
End LOAD.
Definition vnt_of (v : value) : vnt := match v with Null => TNull | CompSpec.Bool b => TBool b | Num n => TUint n end.
Lemma extern_ok a k : a = MEM_EXTERN + k -> k < 1024 -> MEM_EXTERN <= a < MEM_STACK.
Proof. intros -> H. assert (MEM_EXTERN + 1024 <= MEM_STACK) by reflexivity || discriminate. lia. Qed.
Section CALL.
  Variable E : ExecModel.env.
  Notation bk := (e_backend E).
  Lemma args_loaded vs : Forall (fun v => small v = true) vs -> forall a s, MEM_STACK <= a -> a + N.of_nat (List.length vs) <= MEM_STATIC -> empty a MEM_STATIC s -> tidy s ->
    exists s', set_args E (map vnt_of vs) a s = Ok tt s' /\ base s' = base s /\ tidy s' /\ (forall b, b < a -> cell s' (LMem b) = cell s (LMem b)) /\
               forall i v, nth_error vs i = Some v -> holds s' (a + N.of_nat i) (val_of v).
  Proof.
    induction 1 as [|v vs Sv _ IH]; intros a s La Lb Em T; cbn [map set_args List.length].
    - exists s. split; [reflexivity|]. split; [reflexivity|]. split; [exact T|]. split; [reflexivity|]. intros [|i]; discriminate.
    - cbn [List.length] in Lb. pose proof EXM as EX. replace (MEM_STATIC <=? a) with false by (symmetry; apply N.leb_gt; lia).
      destruct (assign_new bk s a (val_of v)) as (s1 & E1 & B1 & O1 & o & C1 & F1 & D1 & V1).
      { apply Em. lia. } { replace (a <? MEM_EXTERN) with false by (symmetry; apply N.ltb_ge; lia). apply andb_false_r. } { lia. }
      { destruct v as [|[]|]; exact I. } { destruct v as [|[]|]; cbn [val_of val_bytes]; unfold MAX_VALUE_BYTES; lia. }
      assert (E2 : assign_var E a (vnt_of v) s = Ok tt s1).
      { unfold assign_var. destruct v as [|[]|]; exact E1. }
      destruct (IH (a + 1) s1) as (s2 & E3 & B2 & T2 & O2 & H2); [lia|lia| | |].
      { intros b Hb. rewrite O1 by lia. apply Em. lia. }
      { intros b o' Hb C. destruct (N.eq_dec b a) as [->|Ne]; [|rewrite O1 in C by auto; eapply T; eauto].
        rewrite C1 in C. injection C as <-. split; [exact F1|]. split; [exact D1|]. rewrite V1. apply vals_of_val. }
      exists s2. split; [erewrite bind_eq by exact E2; exact E3|]. split; [congruence|]. split; [exact T2|]. split.
      + intros b Hb. rewrite O2 by lia. apply O1. lia.
      + intros [|i] w Hn; cbn [nth_error] in Hn.
        * injection Hn as <-. rewrite N.add_0_r. exists o. rewrite O2 by lia. auto.
        * specialize (H2 i w Hn). replace (a + N.of_nat (S i)) with (a + 1 + N.of_nat i) by lia. exact H2.
  Qed.
  (** only what is above the constants and below the stack has been written *)
  Definition since (s s' : st) : Prop :=
    base s' = base s /\ (forall b, b < MEM_EXTERN -> cell s' (LMem b) = cell s (LMem b)) /\ empty MEM_STACK MEM_STATIC s'.
  Lemma extern_written s0 s k v : since s0 s -> s_init s0 = true -> cell s (LMem (MEM_EXTERN + k)) = None -> k < 1024 -> no_ref v -> val_bytes v <= MAX_VALUE_BYTES ->
    exists s', write bk (MEM_EXTERN + k) (STmp v) s = Ok tt s' /\ since s0 s' /\ forall j, j <> k -> cell s' (LMem (MEM_EXTERN + j)) = cell s (LMem (MEM_EXTERN + j)).
  Proof.
    intros (B & O & Em) Hi C Lk Hv Hb. pose proof (extern_ok _ _ eq_refl Lk) as R. pose proof STK as Hst.
    destruct (write_new bk s (MEM_EXTERN + k) v) as (s1 & E1 & B1 & O1 & _); auto.
    { replace (MEM_EXTERN + k <? MEM_EXTERN) with false by (symmetry; apply N.ltb_ge; lia). apply andb_false_r. } { lia. }
    exists s1. split; [exact E1|]. split; [split; [congruence|split]|].
    - intros b Hb2. rewrite O1 by lia. apply O. exact Hb2.
    - intros b Hb2. rewrite O1 by lia. apply Em. exact Hb2.
    - intros j Hj. apply O1. lia.
  Qed.
  Lemma run_more rc rd n s : forall m, EngineModel.run bk (e_ext E) rc rd n s <> Fuel ->
    EngineModel.run bk (e_ext E) rc rd (n + m) s = EngineModel.run bk (e_ext E) rc rd n s.
  Proof.
    revert s. induction n as [|n IH]; intros s m H.
    - cbn [Nat.add]. destruct m; [reflexivity|]. cbn [EngineModel.run] in *. unfold bind, EngineModel.get in *. destruct (s_frames s); [reflexivity|congruence].
    - cbn [Nat.add EngineModel.run] in *. unfold bind, EngineModel.get in *.
      destruct (s_frames s); [reflexivity|]. destruct (EngineModel.step _ _ _ _ s) as [[] s1|s1|s1|]; auto.
  Qed.
End CALL.
Lemma aget_map {V} (f : N -> V -> V) (m : list (N * V)) b : aget N.compare b (map (fun e => (fst e, f (fst e) (snd e))) m) = option_map (f b) (aget N.compare b m).
Proof.
  induction m as [|(k, v) m IH]; [reflexivity|]. cbn [map aget fst snd]. destruct (b ?= k) eqn:Ec; [|exact IH|exact IH].
  apply N.compare_eq in Ec. now subst.
Qed.
Section READY.
  Variable E : ExecModel.env.
  Notation bk := (e_backend E).
  Definition nocall {A B} : A -> B -> N -> M unit := fun _ _ _ => throw.
  Definition started (ip : N) (s : st) : st :=
    EngineModel.set_frames [(ip, 0)] (set_mem (map (fun e => if fst e <? MEM_STACK
                                then (fst e, with_fl (fun f => set_dirty false (set_const true f)) (snd e)) else e) (s_mem s)) s).
  Lemma started_cell ip s b : cell (started ip s) (LMem b) =
    option_map (fun o => if b <? MEM_STACK then with_fl (fun f => set_dirty false (set_const true f)) o else o) (cell s (LMem b)).
  Proof.
    unfold started. cbn [cell s_mem set_mem EngineModel.set_frames].
    rewrite <- (aget_map (fun b o => if b <? MEM_STACK then with_fl (fun f => set_dirty false (set_const true f)) o else o)).
    f_equal. apply map_ext. intros [k o]. cbn [fst snd]. destruct (k <? MEM_STACK); reflexivity.
  Qed.
  Lemma started_holds ip s b v : holds s b v -> holds (started ip s) b v.
  Proof.
    intros (o & C & D & Hv). unfold holds. rewrite started_cell, C. cbn [option_map]. eexists. split; [reflexivity|]. destruct (b <? MEM_STACK); auto.
  Qed.
  Lemma started_tidy ip s : tidy s -> tidy (started ip s).
  Proof.
    intros T b o Hb C. rewrite started_cell in C. replace (b <? MEM_STACK) with false in C by (symmetry; apply N.ltb_ge; lia).
    destruct (cell s (LMem b)) eqn:Ec; [|discriminate]. cbn [option_map] in C. injection C as <-. eapply T; eauto.
  Qed.
  Lemma called KF code m address user vs version limit ro w :
    Forall kind KF -> Forall (fun v => val_bytes v <= MAX_VALUE_BYTES) KF -> N.of_nat (List.length KF) < MEM_EXTERN ->
    Forall (fun v => small v = true) vs -> N.of_nat (List.length vs) < 262144 ->
    N.of_nat (List.length address) <= MAX_VALUE_BYTES -> N.of_nat (List.length (e_network E)) <= MAX_VALUE_BYTES ->
    match user with Some u => N.of_nat (List.length u) <= MAX_VALUE_BYTES | None => True end ->
    let out := call_contract E (ExecModel.mk_binary (Some KF) (Some code) []) m address user None (map vnt_of vs) (engine_new address version limit ro w) in
    (exists s', out = Throw s' /\ overrun s') \/
    exists s, out = bind (EngineModel.run bk (e_ext E) nocall nocall (fuel_of limit)) (fun _ => check_gas) s /\
      s_frames s = [(m_entry m, 0)] /\ s_code s = code /\ s_init s = true /\ s_version s = version /\ consts KF s /\ tidy s /\
      forall i v, nth_error vs i = Some v -> holds s (MEM_STACK + 1 + N.of_nat i) (val_of v).
  Proof.
    intros Hk Hs Lk Sm Lv La Ln Lu out. set (s0 := engine_new address version limit ro w) in *.
    destruct (binary_loaded bk KF code s0 Hk Hs Lk eq_refl) as (s1 & Ld & B1 & M1 & H1); [intros b _; reflexivity|].
    destruct Ld as [Ld|[Ld O]]; [|left; exists s1; split; [apply bind_throw; exact Ld|exact O]]. right.
    pose proof EXM as EX. pose proof STK as Hst. assert (M10 : MEM_EXTERN + 1024 <= MEM_STACK) by (vm_compute; discriminate).
    assert (I1 : s_init s1 = true) by (unfold base in B1; congruence).
    assert (S1 : since s1 s1) by (split; [reflexivity|]; split; [reflexivity|]; intros b Hb; apply M1; lia).
    assert (Z : forall k, k < 1024 -> cell s1 (LMem (MEM_EXTERN + k)) = None) by (intros k Hk2; apply M1; lia).
    destruct (extern_written E s1 s1 EXTERN_TXID VNil S1 I1) as (s2 & E2 & S2 & O2); [apply Z; reflexivity|reflexivity|exact I|vm_compute; discriminate|].
    destruct (extern_written E s1 s2 EXTERN_HEIGHT (VUint (e_height E)) S2 I1) as (s3 & E3 & S3 & O3); [rewrite O2 by discriminate; apply Z; reflexivity|reflexivity|exact I|cbn; vm_compute; discriminate|].
    destruct (extern_written E s1 s3 EXTERN_ADDRESS (VBinary address) S3 I1) as (s4 & E4 & S4 & O4); [rewrite O3, O2 by discriminate; apply Z; reflexivity|reflexivity|exact I|exact La|].
    destruct (extern_written E s1 s4 EXTERN_NETWORK (VBinary (e_network E)) S4 I1) as (s5 & E5 & S5 & O5); [rewrite O4, O3, O2 by discriminate; apply Z; reflexivity|reflexivity|exact I|exact Ln|].
    destruct (extern_written E s1 s5 EXTERN_USER (match user with Some u => VBinary u | None => VNil end) S5 I1) as (s6 & E6 & S6 & _);
      [rewrite O5, O4, O3, O2 by discriminate; apply Z; reflexivity|reflexivity|destruct user; exact I|destruct user; [exact Lu|vm_compute; discriminate]|].
    destruct S6 as (B6 & C6 & M6).
    destruct (args_loaded E vs Sm (MEM_STACK + 1) s6) as (s7 & E7 & B7 & T7 & O7 & H7); [lia|lia| | |].
    { intros b Hb. apply M6. lia. } { intros b o Hb C. rewrite M6 in C by lia. discriminate. }
    exists (started (m_entry m) s7).
    assert (B : base s7 = ([], version, w, limit, (true, code))) by (rewrite B7, B6, B1; reflexivity).
    assert (F7 : s_frames s7 = []) by (unfold base in B; congruence). assert (I7 : s_init s7 = true) by (unfold base in B; congruence).
    assert (L7 : s_limit s7 = limit) by (unfold base in B; congruence).
    split; [|split; [reflexivity|split; [|split; [|split; [|split; [|split]]]]]].
    - unfold out, call_contract. cbn [ExecModel.b_const ExecModel.b_code]. erewrite bind_eq by exact Ld. erewrite bind_eq by exact E2. erewrite bind_eq by exact E3.
      erewrite bind_eq by exact E4. erewrite bind_eq by exact E5. erewrite bind_eq by exact E6. erewrite bind_eq by reflexivity. erewrite bind_eq by exact E7.
      erewrite bind_eq by reflexivity. rewrite L7.
      assert (Bg : begin (m_entry m) s7 = Ok tt (started (m_entry m) s7)) by (unfold begin; erewrite bind_eq by reflexivity; rewrite I7, F7; reflexivity).
      erewrite bind_eq by exact Bg. reflexivity.
    - unfold base in B. cbn. congruence.
    - unfold base in B. cbn. congruence.
    - unfold base in B. cbn. congruence.
    - split; [exact Lk|]. intros n v Hn. apply started_holds. assert (n < List.length KF)%nat by (apply nth_error_Some; congruence).
      destruct (H1 n v Hn) as (o & C & D). exists o. rewrite O7, C6 by lia. auto.
    - now apply started_tidy.
    - intros i v Hn. apply started_holds. exact (H7 i v Hn).
  Qed.
End READY.

(** a contract that was compiled, loaded and called does what its source says *)
Theorem compiled_call : forall E fl text fuel p bin cs g vs m address user version limit ro w n,
  backend_ok (e_backend E) -> ram_ok (w_ram w) ->
  compile fl text fuel (source_of p) = COk bin cs -> plain_prog p ->
  N.of_nat (List.length (b_consts bin)) < MEM_EXTERN -> Forall (fun v => val_bytes v <= MAX_VALUE_BYTES) (b_consts bin) ->
  N.of_nat (List.length (b_code bin)) <= 524288 -> (forall f, In f (sp_fns p) -> N.of_nat (List.length (sf_args f)) < 262144) ->
  In g (sp_fns p) -> lookup_var (sf_name g) (b_methods bin) = Some (m_entry m) ->
  List.length vs = List.length (sf_args g) -> Forall (fun v => small v = true) vs -> 1 <= version ->
  N.of_nat (List.length address) <= MAX_VALUE_BYTES -> N.of_nat (List.length (e_network E)) <= MAX_VALUE_BYTES ->
  match user with Some u => N.of_nat (List.length u) <= MAX_VALUE_BYTES | None => True end ->
  let out := call_contract E (ExecModel.mk_binary (Some (b_consts bin)) (Some (b_code bin)) []) m address user None (map vnt_of vs)
               (engine_new address version limit ro w) in
  match CompSpec.body (fl_catch fl) p n 999 g vs with
  | Val v => exists s, (out = Ok tt s /\ holds s MEM_STACK (val_of v)) \/ (out = Throw s /\ s_limit s < s_gas s)
  | Fail => exists s, out = Throw s
  | Open => True
  end.
Proof.
  intros E fl text fuel p bin cs g vs m address user version limit ro w n Bk Rm Hc Pl Lk Hs Lc Na Hg Hm Lv Sm Ver La Ln Lu out.
  pose proof (compile_kind _ _ _ _ _ _ Pl Hc) as Hk. destruct (compile_inv _ _ _ _ _ _ Pl Hc) as (_ & G0 & C & EC & Rs & HG & Kn & HF).
  assert (Nf : out <> Fuel).
  { pose proof (ExecProps.C57_api_call_changes_nothing E (ExecModel.mk_binary (Some (b_consts bin)) (Some (b_code bin)) []) m address user None (map vnt_of vs) version limit ro w Bk Rm) as H.
    fold out in H. intros Eo. rewrite Eo in H. exact H. }
  assert (Lv2 : N.of_nat (List.length vs) < 262144) by (rewrite Lv; now apply Na).
  destruct (called E (b_consts bin) (b_code bin) m address user vs version limit ro w Hk Hs Lk Sm Lv2 La Ln Lu) as [(s & Eo & O)|(s & Eo & F & Cd & Ii & Vr & Ck & T & Hv)];
    fold out in Eo.
  { rewrite Eo. destruct (CompSpec.body _ _ _ _ _ _); auto; exists s; auto. }
  destruct (HF g Hg) as (pre & c & post & K1 & K2 & EC2 & Gf & Gr & Lm). rewrite Hm in Lm.
  assert (Em : m_entry m = N.of_nat (List.length pre)) by (injection Lm; auto). clear Lm.
  assert (LK : len (b_consts bin) < MEM_EXTERN) by (rewrite <- len_eq; exact Lk).
  assert (LC : len C <= 524288) by (rewrite <- len_eq; rewrite EC, map_length in Lc; exact Lc).
  assert (NA : forall f, In f (sp_fns p) -> len (sf_args f) < 262144) by (intros f Hf; rewrite <- len_eq; auto).
  assert (HP : forall f, In f (sp_fns p) -> exists K, plain_func K f = true) by apply Pl.
  assert (Av : argvals (sf_args g) vs = vs) by (rewrite argvals_eq, Lv, skipn_all by lia; cbn [map]; apply app_nil_r).
  assert (Q : outcome (e_backend E) (e_ext E) nocall nocall s (CompSpec.body (fl_catch fl) p n 999 g vs) (back s 0 [])).
  { eapply (body_sim (e_backend E) (e_ext E) nocall nocall fl text p G0 C (b_methods bin) (b_consts bin)); eauto.
    - rewrite Hm, Em. reflexivity.
    - rewrite Av. exact Sm.
    - rewrite Av. intros i v Hi. rewrite N.add_0_r. apply Hv. exact Hi.
    - split; [rewrite <- EC; exact Cd|]. split; [exact Ii|]. split; [rewrite Vr; exact Ver|]. split; [exact Ck|exact T].
    - unfold at_. rewrite F, Em. reflexivity.
    - split; [reflexivity|]. split; [vm_compute; discriminate|exact I]. }
  set (run := EngineModel.run (e_backend E) (e_ext E) nocall nocall) in *.
  assert (Rf : run (fuel_of limit) s <> Fuel).
  { intros H. apply Nf. rewrite Eo. unfold bind. rewrite H. reflexivity. }
  assert (Rm2 : forall k, run (k + fuel_of limit)%nat s = run (fuel_of limit) s).
  { intros k. rewrite Nat.add_comm. exact (run_more E nocall nocall (fuel_of limit) s k Rf). }
  assert (Thr : forall k s', dies (e_backend E) (e_ext E) nocall nocall k s s' -> out = Throw s').
  { intros k s' D. rewrite Eo. apply bind_throw. rewrite <- (Rm2 k). apply D. }
  destruct (CompSpec.body _ _ _ _ _ _) as [v| |]; [| |exact I]; cbn [outcome] in Q.
  - destruct Q as [(k & s' & St & (J1 & J2 & J3 & J4))|(k & s' & D & O)].
    + assert (Er : run (fuel_of limit) s = Ok tt s').
      { rewrite <- (Rm2 k). unfold run. unfold steps in St. rewrite St.
        generalize (fuel_of limit). intros j. destruct j; cbn [EngineModel.run]; unfold bind, EngineModel.get; rewrite J1; reflexivity. }
      rewrite Eo. unfold bind. rewrite Er. unfold check_gas. destruct (s_limit s' <? s_gas s') eqn:Gs.
      * exists (set_error TXFEE_OVERRUN s'). right. split; [reflexivity|]. now apply N.ltb_lt in Gs.
      * exists s'. left. split; [reflexivity|]. rewrite N.add_0_r in J3. exact J3.
    + exists s'. right. split; [eapply Thr; exact D|exact O].
  - destruct Q as (k & s' & D). exists s'. eapply Thr; exact D.
Qed.
