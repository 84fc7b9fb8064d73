(** Where the compiler keeps things: addresses, the size of stack frames, and how functions end. *)
Require Import List Arith NArith ZArith Bool String Lia.
From Verif Require Import BytesLib VarModel InstrModel EngineModel CompModel CompSpec CompGen CompParse CompTree CompLink.
Import List ListNotations.
Open Scope N_scope.

Definition noret (c : list ains) : Prop := Forall (fun i => (i_code (fst i) =? OP_RET) = false) c.
Definition len {A} (l : list A) : N := N.of_nat (List.length l).
Lemma len_app {A} (a b : list A) : len (a ++ b) = len a + len b. Proof. unfold len. rewrite app_length. lia. Qed.
Lemma len_cons {A} (a : A) b : len (a :: b) = 1 + len b. Proof. unfold len. cbn [List.length]. lia. Qed.
Lemma len_eq {A} (a : list A) : N.of_nat (List.length a) = len a. Proof. reflexivity. Qed.
Lemma len_nil {A} : len (@nil A) = 0. Proof. reflexivity. Qed.
Lemma len_pos {A} (l : list A) : l <> [] -> 1 <= len l. Proof. destruct l; [congruence|]. intros _. rewrite len_cons. lia. Qed.
Global Opaque len.
Ltac lens := repeat (first [rewrite len_app in * | rewrite len_cons in *]); rewrite ?len_nil in *.
Lemma noret_app a b : noret a -> noret b -> noret (a ++ b). Proof. intros A B. apply Forall_app. auto. Qed.
Lemma noret_one i a : (i_code (fst i) =? OP_RET) = false -> noret a -> noret (i :: a). Proof. constructor; auto. Qed.
Lemma noret_nil : noret []. Proof. constructor. Qed.
Lemma gcopy_noret d s : noret (gcopy d s).
Proof. unfold gcopy. destruct (d =? s); [apply noret_nil|apply noret_one; [reflexivity|apply noret_nil]]. Qed.
Lemma gcopies_noret l : forall d, noret (gcopies d l).
Proof. induction l as [|a l IH]; intros d; cbn [gcopies]; [apply noret_nil|]. apply noret_app; [apply gcopy_noret|apply IH]. Qed.
Lemma gdefaults_noret l : forall d K c K', gdefaults d l K = (c, K') -> noret c.
Proof.
  induction l as [|[x v] l IH]; intros d K c K' H; cbn [gdefaults] in H; [injection H as <- <-; apply noret_nil|].
  destruct (match v with Some v => kaddr v K | None => (0, K) end) as [a K1].
  destruct (gdefaults (d + 1) l K1) as [c2 K2] eqn:E. injection H as <- <-. apply noret_one; [reflexivity|eauto].
Qed.
Lemma code_of_noret o : (code_of o =? OP_RET) = false. Proof. destruct o; reflexivity. Qed.
Lemma gopt_noret fl op f r K op' f' r' K' : gopt fl op f r K = (op', f', r', K') -> (op =? OP_RET) = false -> (op' =? OP_RET) = false.
Proof.
  unfold gopt. intros H Hop. destruct (_ && _); [|injection H as <- <- <- <-; auto].
  destruct (nth_error _ _) as [u|]; [|injection H as <- <- <- <-; auto]. destruct (pow2 u); [|injection H as <- <- <- <-; auto].
  destruct (op =? OP_DIV); [injection H as <- <- <- <-; reflexivity|]. destruct (kaddr _ K). injection H as <- <- <- <-. reflexivity.
Qed.
Lemma kaddr_lt v K a K' KF : kaddr v K = (a, K') -> grows K' KF -> a < len KF.
Proof.
  intros H Gr. apply grows_length in Gr. unfold kaddr in H. Local Transparent len. unfold len. destruct (const_pos v K) as [n|] eqn:E; injection H as <- <-.
  - apply const_pos_nth in E. destruct E as (w & Hw & _). assert (nth_error K (N.to_nat n) <> None) as Hn by congruence. apply nth_error_Some in Hn. lia.
  - rewrite app_length in Gr. cbn [List.length] in Gr. lia.
Qed.
Local Opaque len.

Section STATIC.
  Variable fl : flags.
  Variable text : list node -> bytes.
  Variable fns : list fn.
  Variable KF : list val.
  Notation gexp := (CompGen.gexp fl fns).
  Notation gstmt := (CompGen.gstmt fl text fns).
  Notation gstmts := (CompGen.gstmts gstmt).
  Hypothesis LK : len KF < MEM_EXTERN.
  Hypothesis K1 : 1 <= len KF.

  Definition addrs (G : env_t) : list N := map (fun g => v_addr (snd g)) G.
  Definition locs (G : env_t) (off off' a : N) : Prop := a < len KF \/ In a (addrs G) \/ MEM_STACK + off <= a < MEM_STACK + off'.
  Definition good (off a : N) : Prop := a < len KF \/ MEM_STACK < a < MEM_STACK + off.
  Lemma locs_mono G o1 o2 o1' o2' a : o2 <= o1 -> o1' <= o2' -> locs G o1 o1' a -> locs G o2 o2' a.
  Proof. intros A B [H|[H|H]]; [now left|right; now left|right; right; lia]. Qed.
  Ltac here_ := right; right; lia.

  Definition exp_ok (G : env_t) (off : N) (c : list ains) (a off' : N) : Prop :=
    off <= off' /\ off' <= off + len c /\ locs G off off' a /\ noret c.
  Lemma gexps_static G l : Forall (fun e => forall off K c a off' K', gexp G e off K = Some (c, a, off', K') -> grows K' KF -> exp_ok G off c a off') l ->
    forall off K c r off' K', gexps (gexp G) l off K = Some (c, r, off', K') -> grows K' KF ->
    off <= off' /\ off' <= off + len c /\ Forall (locs G off off') r /\ noret c /\ List.length r = List.length l.
  Proof.
    induction 1 as [|e l He _ IH]; intros off K c r off' K' H Gr; cbn [gexps] in H.
    - s4 H. lens. repeat split; try lia; constructor.
    - destruct (gexp G e off K) as [[[[c1 a1] off1] K2]|] eqn:E; [|discriminate].
      destruct (gexps (gexp G) l off1 K2) as [[[[c2 r2] off2] K3]|] eqn:E2; [|discriminate]. s4 H.
      destruct (IH _ _ _ _ _ _ E2 Gr) as (A1 & A2 & A3 & A4 & A5).
      assert (Gr2 : grows K2 KF) by (eapply grows_trans; [eapply gexps_grows; [|exact E2]|exact Gr]; apply Forall_forall; intros; eapply gexp_grows; eauto).
      destruct (He _ _ _ _ _ _ E Gr2) as (B1 & B2 & B3 & B4). lens.
      repeat split; try lia.
      + constructor; [eapply locs_mono; [| |exact B3]; lia|]. eapply Forall_impl; [|exact A3]. intros a Ha. eapply locs_mono; [| |exact Ha]; lia.
      + now apply noret_app.
      + cbn [List.length]. now f_equal.
  Qed.
  Lemma gpicks_static G l : Forall (fun e => forall off K c a off' K', gexp G e off K = Some (c, a, off', K') -> grows K' KF -> exp_ok G off c a off') l ->
    forall op d lhs off K c off' K', gpicks (gexp G) op d lhs l off K = Some (c, off', K') -> grows K' KF -> (op =? OP_RET) = false ->
    off <= off' /\ off' <= off + len c /\ noret c /\ (l <> [] -> off' + 1 <= off + len c).
  Proof.
    induction 1 as [|e l He _ IH]; intros op d lhs off K c off' K' H Gr Op; cbn [gpicks] in H.
    - s3 H. lens. repeat split; try lia; [constructor|congruence].
    - destruct (gexp G e off K) as [[[[c1 a1] off1] K2]|] eqn:E; [|discriminate].
      destruct (gpicks (gexp G) op d d l off1 K2) as [[[c2 off2] K3]|] eqn:E2; [|discriminate]. s3 H.
      destruct (IH _ _ _ _ _ _ _ _ E2 Gr Op) as (A1 & A2 & A3 & A4).
      assert (Gr2 : grows K2 KF) by (eapply grows_trans; [eapply gpicks_grows; [|exact E2]|exact Gr]; apply Forall_forall; intros; eapply gexp_grows; eauto).
      destruct (He _ _ _ _ _ _ E Gr2) as (B1 & B2 & B3 & B4). lens. repeat split; try lia.
      apply noret_app; auto. apply noret_one; auto.
  Qed.
  Lemma gexp_static G e : forall off K c a off' K', gexp G e off K = Some (c, a, off', K') -> grows K' KF -> exp_ok G off c a off'.
  Proof.
    induction e as [v|x|e IH|e IH|o a b IHa IHb|e IH|q a l IHa IHl|f l IHl] using exp_ind2; intros off K c a1 off' K' H Gr;
      cbn [CompGen.gexp] in H; unfold exp_ok.
    - destruct (kaddr (val_of v) K) as [a K2] eqn:E. s4 H. lens. repeat split; try lia; [|constructor]. left. eapply kaddr_lt; eauto.
    - destruct (lookup_var x G) as [v|] eqn:E; [|discriminate]. s4 H. lens. repeat split; try lia; [|constructor]. right; left.
      clear -E. induction G as [|(y, u) G IH]; cbn [lookup_var] in E; [discriminate|]. cbn [addrs map snd In].
      destruct (String.eqb x y); [injection E as ->; now left|right; now apply IH].
    - destruct (gexp G e off K) as [[[[c1 a2] off1] K2]|] eqn:E; [|discriminate]. s4 H.
      destruct (IH _ _ _ _ _ _ E Gr) as (B1 & B2 & B3 & B4). lens. repeat split; try lia; [here_|]. apply noret_app; auto. apply noret_one; [reflexivity|constructor].
    - destruct (gexp G e off K) as [[[[c1 a2] off1] K2]|] eqn:E; [|discriminate]. s4 H.
      destruct (IH _ _ _ _ _ _ E Gr) as (B1 & B2 & B3 & B4). lens. repeat split; try lia; [here_|]. apply noret_app; auto. apply noret_one; [reflexivity|constructor].
    - destruct (gexp G a off K) as [[[[c1 a2] off1] K2]|] eqn:E; [|discriminate]. destruct (is_shift o) eqn:Sh.
      + destruct (gexp G b (off1 + 1) K2) as [[[[c2 a3] off2] K3]|] eqn:E2; [|discriminate]. s4 H.
        destruct (IHb _ _ _ _ _ _ E2 Gr) as (A1 & A2 & A3 & A4).
        destruct (IHa _ _ _ _ _ _ E) as (B1 & B2 & B3 & B4); [eapply grows_trans; [eapply gexp_grows; exact E2|exact Gr]|].
        lens. repeat split; try lia; [here_|]. apply noret_app; auto. apply noret_app; auto. apply noret_one; [apply code_of_noret|constructor].
      + destruct (gexp G b off1 K2) as [[[[c2 a3] off2] K3]|] eqn:E2; [|discriminate].
        destruct (gopt fl _ _ a3 K3) as [[[op f] rhs] K4] eqn:E3. s4 H.
        assert (Gr3 : grows K3 KF) by (eapply grows_trans; [eapply gopt_grows; exact E3|exact Gr]).
        destruct (IHb _ _ _ _ _ _ E2 Gr3) as (A1 & A2 & A3 & A4).
        destruct (IHa _ _ _ _ _ _ E) as (B1 & B2 & B3 & B4); [eapply grows_trans; [eapply gexp_grows; exact E2|exact Gr3]|].
        lens. repeat split; try lia; [here_|]. apply noret_app; auto. apply noret_app; auto.
        apply noret_one; [|constructor]. eapply gopt_noret; [exact E3|]. apply code_of_noret.
    - now apply IH in H.
    - destruct l as [|e2 l]; [discriminate|]. destruct (gexp G a (off + 1) K) as [[[[c1 a2] off1] K2]|] eqn:E; [|discriminate].
      destruct (gpicks (gexp G) _ _ a2 (e2 :: l) off1 K2) as [[[c2 off2] K3]|] eqn:E2; [|discriminate]. s4 H.
      assert (Gr2 : grows K2 KF) by (eapply grows_trans; [eapply gpicks_grows; [|exact E2]|exact Gr]; apply Forall_forall; intros; eapply gexp_grows; eauto).
      apply gpicks_static in E2; auto; [|now destruct q]. destruct E2 as (A1 & A2 & A3 & A4). specialize (A4 ltac:(discriminate)).
      destruct (IHa _ _ _ _ _ _ E Gr2) as (B1 & B2 & B3 & B4). lens. repeat split; try lia; [here_|]. now apply noret_app.
    - destruct (find_fn fns f) as [g|]; [|discriminate]. destruct (_ <? _)%nat; [discriminate|].
      destruct (gexps (gexp G) l off K) as [[[[c1 r] off1] K2]|] eqn:E; [|discriminate].
      destruct (gdefaults _ _ K2) as [c3 K3] eqn:E2. s4 H.
      apply gexps_static in E; auto; [|eapply grows_trans; [eapply gdefaults_grows; exact E2|exact Gr]].
      destruct E as (A1 & A2 & A3 & A4 & A5). lens. repeat split; try lia; [here_|].
      apply noret_app; auto. apply noret_app; [apply gcopies_noret|]. apply noret_app; [eapply gdefaults_noret; eauto|]. apply noret_one; [reflexivity|constructor].
  Qed.
  Lemma gexp_quiet G e : forall off K a off' K', gexp G e off K = Some ([], a, off', K') -> match strip e with Lit _ | Var _ => True | _ => False end.
  Proof.
    induction e as [v|x|e IH|e IH|o a b IHa IHb|e IH|q a l IHa IHl|f l IHl] using exp_ind2; intros off K a1 off' K' H; cbn [CompGen.gexp strip] in *; auto.
    - destruct (gexp G e off K) as [[[[c1 a2] off1] K2]|]; [|discriminate]. apply some4 in H. destruct H as [H _]. now destruct c1.
    - destruct (gexp G e off K) as [[[[c1 a2] off1] K2]|]; [|discriminate]. apply some4 in H. destruct H as [H _]. now destruct c1.
    - destruct (gexp G a off K) as [[[[c1 a2] off1] K2]|] eqn:E; [|discriminate]. destruct (is_shift o) eqn:Sh.
      + destruct (gexp G b (off1 + 1) K2) as [[[[c2 a3] off2] K3]|] eqn:E2; [|discriminate]. apply some4 in H. destruct H as [H _]. destruct c1, c2; discriminate.
      + destruct (gexp G b off1 K2) as [[[[c2 a3] off2] K3]|] eqn:E2; [|discriminate]. destruct (gopt fl _ _ a3 K3) as [[[op f] rhs] K4].
        apply some4 in H. destruct H as [H _]. destruct c1, c2; discriminate.
    - exact (IH _ _ _ _ _ H).
    - destruct l as [|e2 l]; [discriminate|]. destruct (gexp G a (off + 1) K) as [[[[c1 a2] off1] K2]|] eqn:E; [|discriminate].
      cbn [gpicks] in H. destruct (gexp G e2 off1 K2) as [[[[c3 a3] off3] K3]|]; [|discriminate].
      destruct (gpicks (gexp G) _ _ _ l off3 K3) as [[[c2 off2] K4]|]; [|discriminate]. apply some4 in H. destruct H as [H _].
      destruct c1, c3; discriminate.
    - destruct (find_fn fns f) as [g|]; [|discriminate]. destruct (_ <? _)%nat; [discriminate|].
      destruct (gexps (gexp G) l off K) as [[[[c1 r] off1] K2]|]; [|discriminate]. destruct (gdefaults _ _ K2) as [c3 K3].
      apply some4 in H. destruct H as [H _]. apply app_eq_nil in H. destruct H as [_ H]. apply app_eq_nil in H. destruct H as [_ H].
      apply app_eq_nil in H. destruct H as [_ H]. discriminate.
  Qed.

  (** *** Variables *)
  Variable K0 : list ident.
  Definition gok (off : N) (g : ident * variable) : Prop :=
    (v_addr (snd g) < len KF /\ v_isconst (snd g) = true) \/
    (MEM_STACK < v_addr (snd g) < MEM_STACK + off /\ (v_isconst (snd g) = true -> is_in (fst g) K0 = true)).
  Definition onstack (G : env_t) : list N := filter (fun a => MEM_STACK <=? a) (addrs G).
  Definition wfG (G : env_t) (off : N) : Prop := Forall (gok off) G /\ NoDup (onstack G).
  Lemma wfG_mono G off off' : off <= off' -> wfG G off -> wfG G off'.
  Proof. intros L [A B]. split; auto. eapply Forall_impl; [|exact A]. intros g [H|[H I]]; [now left|right; split; [lia|auto]]. Qed.
  Lemma EX : MEM_EXTERN < MEM_STACK. Proof. reflexivity. Qed.
  Lemma wfG_addr G off a : wfG G off -> In a (addrs G) -> good off a.
  Proof.
    intros [A _] H. apply in_map_iff in H. destruct H as (g & <- & H). rewrite Forall_forall in A. destruct (A g H) as [[B _]|[B _]]; [now left|now right].
  Qed.
  Lemma locs_good G off off' a : wfG G off -> 1 <= off -> off <= off' -> locs G off off' a -> good off' a.
  Proof.
    intros W Lo Le [H|[H|H]]; [now left| |right; lia]. destruct (wfG_addr _ _ _ W H) as [B|B]; [now left|right; lia].
  Qed.
  Lemma wfG_push G off q x : wfG G off -> 1 <= off -> (q = true -> is_in x K0 = true) ->
    wfG ((x, mk_var q (MEM_STACK + off)) :: G) (off + 1).
  Proof.
    intros W Lo Q. split.
    - constructor; [right; cbn [snd fst v_addr v_isconst]; split; [lia|auto]|]. apply (wfG_mono G off (off + 1)); [lia|auto].
    - unfold onstack. cbn [addrs map snd v_addr filter]. replace (MEM_STACK <=? MEM_STACK + off) with true by (symmetry; apply N.leb_le; lia).
      constructor; [|apply W]. intros H. apply filter_In in H. destruct H as [H _]. pose proof EX. destruct (wfG_addr _ _ _ W H); lia.
  Qed.
  Lemma wfG_const G off x a : wfG G off -> a < len KF -> wfG ((x, mk_var true a) :: G) off.
  Proof.
    intros [A B] L. split.
    - constructor; [left; cbn; auto|auto].
    - unfold onstack. cbn [addrs map snd v_addr filter]. pose proof EX. replace (MEM_STACK <=? a) with false by (symmetry; apply N.leb_gt; lia). exact B.
  Qed.
  Lemma not_here G off off' a : wfG G off -> locs G (off + 1) off' a -> a <> MEM_STACK + off.
  Proof. intros W [H|[H|H]] E; subst a; pose proof EX; [lia| |lia]. destruct (wfG_addr _ _ _ W H); lia. Qed.
  Lemma lookup_In {V} x (G : list (ident * V)) v : lookup_var x G = Some v -> In (x, v) G.
  Proof.
    induction G as [|(y, u) G IH]; cbn [lookup_var]; [discriminate|]. destruct (String.eqb_spec x y) as [->|]; intros H; [injection H as ->; now left|right; auto].
  Qed.
  Lemma lookup_ok G off x v : wfG G off -> lookup_var x G = Some v -> gok off (x, v) /\ In (v_addr v) (addrs G).
  Proof.
    intros [A _] H. apply lookup_In in H. rewrite Forall_forall in A. split; [now apply A|]. apply in_map_iff. now exists (x, v).
  Qed.
  Lemma lookup_same G off x y v w : wfG G off -> lookup_var x G = Some v -> lookup_var y G = Some w -> v_addr v = v_addr w -> MEM_STACK <= v_addr v -> x = y.
  Proof.
    intros [_ N] Hx Hy E L. induction G as [|(z, u) G IH]; [discriminate|]. cbn [lookup_var] in Hx, Hy.
    assert (I : forall k t, lookup_var k G = Some t -> v_addr t = v_addr v -> In (v_addr v) (onstack G)).
    { intros k t H Et. apply lookup_In in H. apply filter_In. split; [|now apply N.leb_le]. apply in_map_iff. exists (k, t). auto. }
    unfold onstack in N. cbn [addrs map snd filter] in N.
    destruct (String.eqb_spec x z) as [->|], (String.eqb_spec y z) as [->|]; auto.
    - injection Hx as ->. replace (MEM_STACK <=? v_addr v) with true in N by (symmetry; now apply N.leb_le). inversion_clear N.
      edestruct H. eapply I; eauto.
    - injection Hy as ->. rewrite <- E in N. replace (MEM_STACK <=? v_addr v) with true in N by (symmetry; now apply N.leb_le). inversion_clear N.
      edestruct H. eapply I; eauto.
    - apply IH; auto. destruct (MEM_STACK <=? v_addr u); [now inversion_clear N|exact N].
  Qed.

  (** *** Statements *)
  Definition stmt_ok (s : stmt) (G : env_t) (off : N) (c : list ains) (D : env_t) (off' : N) : Prop :=
    off <= off' /\ off' <= off + len c /\ wfG (D ++ G) off' /\ (declares s = false -> D = []).
  Lemma copy_len G off off1 a : wfG G off -> locs G (off + 1) off1 a -> len (gcopy (MEM_STACK + off) a) = 1.
  Proof.
    intros W L. unfold gcopy. pose proof (not_here _ _ _ _ W L) as Ne. apply not_eq_sym, N.eqb_neq in Ne. rewrite Ne. lens. reflexivity.
  Qed.
  Lemma declare_static q x e G off K c D off' K' : declare fl fns q x e G off K = Some (c, D, off', K') -> grows K' KF -> wfG G off -> 1 <= off ->
    (q = true -> is_in x K0 = true) ->
    off <= off' /\ off' <= off + len c /\ wfG (D ++ G) off'.
  Proof.
    unfold declare. destruct (gexp G e (off + 1) K) as [[[[c1 a] off1] K2]|] eqn:E; [|discriminate]. intros H Gr W Lo Q. s4 H.
    apply gexp_static in E; auto. destruct E as (A1 & A2 & A3 & A4). rewrite len_app, (copy_len _ _ _ _ W A3). repeat split; try lia.
    - eapply wfG_mono; [|apply (wfG_push G off q x); auto]. lia.
    - apply (wfG_push G off q x); auto.
  Qed.
  Lemma gstmts_static l : Forall (fun s => forall G off K pos c D off' K', gstmt s G off K pos = Some (c, D, off', K') -> grows K' KF ->
      wfG G off -> 1 <= off -> plain K0 s = true -> stmt_ok s G off c D off') l ->
    forall G off K pos c D off' K', gstmts l G off K pos = Some (c, D, off', K') -> grows K' KF -> wfG G off -> 1 <= off ->
    forallb (plain K0) l = true -> off <= off' /\ off' <= off + len c /\ wfG (D ++ G) off' /\ (forallb (fun s => negb (declares s)) l = true -> D = []).
  Proof.
    induction 1 as [|s l Hs _ IH]; intros G off K pos c D off' K' H Gr W Lo Pl.
    - s4 H. lens. repeat split; try lia; apply W.
    - rewrite gstmts_cons in H. destruct (gstmt s G off K pos) as [[[[c1 D1] off1] K2]|] eqn:E; [|discriminate].
      destruct (gstmts l _ off1 K2 _) as [[[[c2 D2] off2] K3]|] eqn:E2; [|discriminate]. s4 H.
      cbn [forallb] in *. apply andb_true_iff in Pl. destruct Pl as [P1 P2].
      destruct (Hs _ _ _ _ _ _ _ _ E) as (A1 & A2 & A3 & A4); auto.
      { eapply grows_trans; [eapply gstmts_grows; [|exact E2]|exact Gr]. apply Forall_forall; intros; apply gstmt_grows. }
      destruct (IH _ _ _ _ _ _ _ _ E2) as (B1 & B2 & B3 & B4); auto; [lia|]. lens. repeat split; try lia.
      + rewrite <- app_assoc. apply B3.
      + rewrite <- app_assoc. apply B3.
      + intros Hd. apply andb_true_iff in Hd. destruct Hd as [H1 H2]. rewrite (B4 H2), A4; auto. now apply negb_true_iff.
  Qed.
  Lemma gstmt_static s : forall G off K pos c D off' K', gstmt s G off K pos = Some (c, D, off', K') -> grows K' KF ->
      wfG G off -> 1 <= off -> plain K0 s = true -> stmt_ok s G off c D off'.
  Proof.
    induction s as [x e|x e|x e|o x e|up q x|e|e|e|l IHl|c s e IHs IHe|c s IHs|i c q s IHi IHq IHs] using stmt_ind2;
      intros G off K pos cd D off' K' H Gr W Lo Pl; cbn [CompGen.gstmt plain] in H, Pl; unfold stmt_ok; cbn [declares].
    - destruct e as [e|].
      + destruct (declare_static _ _ _ _ _ _ _ _ _ _ H Gr W Lo) as (A & B & C); [discriminate|]. repeat split; auto; try apply C. discriminate.
      + s4 H. unfold gcopy. pose proof EX. replace (MEM_STACK + off =? 0) with false by (symmetry; apply N.eqb_neq; lia). lens.
        repeat split; try lia; apply (wfG_push G off false x); auto; discriminate.
    - apply andb_true_iff in Pl. destruct Pl as [_ Pl]. destruct (is_lit e) eqn:Le.
      + destruct e; try discriminate Le. destruct (kaddr _ K) as [a K2] eqn:E. s4 H. lens. pose proof (kaddr_lt _ _ _ _ _ E Gr) as L.
        repeat split; try lia; apply (wfG_const G off x a); auto.
      + assert (Hd : declare fl fns true x e G off K = Some (cd, D, off', K')) by (destruct e; try discriminate Le; exact H).
        destruct (declare_static _ _ _ _ _ _ _ _ _ _ Hd Gr W Lo) as (A & B & C); [auto|]. repeat split; auto; try apply C. discriminate.
    - destruct (lookup_var x G) as [v|]; [|discriminate]. destruct (v_isconst v); [discriminate|].
      destruct (gexp G e off K) as [[[[c1 a] off1] K2]|] eqn:E; [|discriminate]. s4 H. apply gexp_static in E; auto.
      destruct E as (A1 & A2 & A3 & A4). lens. cbn [app]. assert (wfG G off1) by (eapply wfG_mono; eauto). repeat split; auto; try lia; apply H.
    - destruct (lookup_var x G) as [v|]; [|discriminate].
      destruct (gexp G e off K) as [[[[c1 a] off1] K2]|] eqn:E; [|discriminate].
      destruct (gopt fl _ _ a K2) as [[[op f] rhs] K3] eqn:E3. s4 H. apply gexp_static in E; [|eapply grows_trans; [eapply gopt_grows; exact E3|exact Gr]].
      destruct E as (A1 & A2 & A3 & A4). lens. cbn [app]. assert (wfG G off1) by (eapply wfG_mono; eauto). repeat split; auto; try lia; apply H.
    - destruct (lookup_var x G) as [v|]; [|discriminate]. destruct (v_isconst v); [discriminate|]. destruct (kaddr _ K) as [one K2].
      destruct q; s4 H; lens; cbn [app]; [repeat split; auto; try lia; apply W|].
      assert (wfG G (off + 1)) by (eapply wfG_mono; [|exact W]; lia). repeat split; auto; try lia; apply H.
    - destruct (gexp G e off K) as [[[[c1 a] off1] K2]|] eqn:E; [|discriminate]. s4 H. apply gexp_static in E; auto.
      destruct E as (A1 & A2 & A3 & A4). lens. cbn [app]. assert (wfG G off1) by (eapply wfG_mono; eauto). repeat split; auto; try lia; apply H.
    - destruct (gexp G e off K) as [[[[c1 a] off1] K2]|] eqn:E; [|discriminate]. destruct (kaddr _ K2) as [m K3] eqn:E3. s4 H.
      apply gexp_static in E; [|eapply grows_trans; [eapply kaddr_grows; exact E3|exact Gr]].
      destruct E as (A1 & A2 & A3 & A4). lens. cbn [app]. assert (wfG G off1) by (eapply wfG_mono; eauto). repeat split; auto; try lia; apply H.
    - destruct e as [e|].
      + destruct (gexp G e off K) as [[[[c1 a] off1] K2]|] eqn:E; [|discriminate]. s4 H. apply gexp_static in E; auto.
        destruct E as (A1 & A2 & A3 & A4). lens. cbn [app]. assert (wfG G off1) by (eapply wfG_mono; eauto). repeat split; auto; try lia; apply H.
      + s4 H. lens. cbn [app]. repeat split; auto; try lia; apply W.
    - destruct (gstmts l G off K pos) as [[[[c1 D1] off1] K2]|] eqn:E; [|discriminate]. s4 H. lens. cbn [app]. repeat split; auto; try lia; apply W.
    - apply andb_true_iff in Pl. destruct Pl as [Pl Pe]. apply andb_true_iff in Pl. destruct Pl as [Pl Pd]. apply andb_true_iff in Pl. destruct Pl as [_ Ps].
      apply negb_true_iff in Pd.
      destruct (gexp G c off K) as [[[[c1 a] off1] K2]|] eqn:E; [|discriminate].
      destruct (gstmt s G off1 K2 _) as [[[[c2 D2] off2] K3]|] eqn:E2; [|discriminate]. destruct e as [e|].
      + destruct (gstmt e _ off2 K3 _) as [[[[c3 D3] off3] K4]|] eqn:E3; [|discriminate]. s4 H.
        apply andb_true_iff in Pe. destruct Pe as [Pe Pn]. apply negb_true_iff in Pn.
        assert (Gr3 : grows K3 KF) by (eapply grows_trans; [eapply gstmt_grows; exact E3|exact Gr]).
        apply gexp_static in E; [|eapply grows_trans; [eapply gstmt_grows; exact E2|exact Gr3]]. destruct E as (A1 & A2 & A3 & A4).
        destruct (IHs _ _ _ _ _ _ _ _ E2) as (B1 & B2 & B3 & B4); auto; [eapply wfG_mono; eauto|lia|]. rewrite (B4 Pd) in *. cbn [app] in *.
        destruct (IHe e eq_refl _ _ _ _ _ _ _ _ E3) as (C1 & C2 & C3 & C4); auto; [lia|]. rewrite (C4 Pn) in *. cbn [app] in *. lens.
        repeat split; auto; try lia; apply C3.
      + s4 H. apply gexp_static in E; [|eapply grows_trans; [eapply gstmt_grows; exact E2|exact Gr]]. destruct E as (A1 & A2 & A3 & A4).
        destruct (IHs _ _ _ _ _ _ _ _ E2) as (B1 & B2 & B3 & B4); auto; [eapply wfG_mono; eauto|lia|]. rewrite (B4 Pd) in *. cbn [app] in *. lens.
        repeat split; auto; try lia; apply B3.
    - apply andb_true_iff in Pl. destruct Pl as [Pl Pd]. apply andb_true_iff in Pl. destruct Pl as [_ Ps]. apply negb_true_iff in Pd.
      destruct (gexp G c off K) as [[[[c1 a] off1] K2]|] eqn:E; [|discriminate].
      destruct (gstmt s G off1 K2 _) as [[[[c2 D2] off2] K3]|] eqn:E2; [|discriminate]. s4 H.
      apply gexp_static in E; [|eapply grows_trans; [eapply gstmt_grows; exact E2|exact Gr]]. destruct E as (A1 & A2 & A3 & A4).
      destruct (IHs _ _ _ _ _ _ _ _ E2) as (B1 & B2 & B3 & B4); auto; [eapply wfG_mono; eauto|lia|]. rewrite (B4 Pd) in *. cbn [app] in *. lens.
      repeat split; auto; try lia; apply B3.
    - destruct (gstmts i G off K pos) as [[[[c0 D0] off0] K2]|]; [|discriminate]. destruct (gexp _ c off0 K2) as [[[[c1 a] off1] K3]|]; [|discriminate].
      destruct (gstmt s _ off1 K3 _) as [[[[c2 D2] off2] K4]|]; [|discriminate]. destruct (gstmts q _ off2 K4 _) as [[[[c3 D3] off3] K5]|]; [|discriminate].
      s4 H. lens. cbn [app]. repeat split; auto; try lia; apply W.
  Qed.

  (** *** How code ends *)
  Definition ends (c : list ains) : bool := last_is_ret (map fst c).
  Lemma ends_cons a i b : ends (a ++ i :: b) = ends (i :: b).
  Proof.
    unfold ains in *. unfold ends, last_is_ret. unfold ains in *. rewrite map_app, rev_app_distr. cbn [map rev]. rewrite <- app_assoc. cbn [app].
    destruct (rev (map fst b)) as [|j r]; reflexivity.
  Qed.
  Lemma ends_app a b : ends (a ++ b) = match b with [] => ends a | _ => ends b end.
  Proof. destruct b as [|i b]; [now rewrite app_nil_r|apply ends_cons]. Qed.
  Lemma ends_noret c : noret c -> ends c = false.
  Proof.
    intros H. unfold noret, ains in *. unfold ends, last_is_ret. unfold ains in *. apply Forall_rev in H. rewrite <- map_rev. destruct (rev c) as [|i r]; [reflexivity|].
    cbn [map]. now inversion_clear H.
  Qed.
  Lemma ends_step i c : (i_code (fst i) =? OP_RET) = false -> ends (i :: c) = true -> ends c = true /\ c <> [].
  Proof.
    intros Hi. change (i :: c) with ([i] ++ c). rewrite ends_app. destruct c as [|j c]; [|split; [auto|discriminate]].
    unfold ends, last_is_ret. cbn [map rev app]. congruence.
  Qed.
  Definition end_ok (s : stmt) (c : list ains) : Prop := (c = [] -> quiet s = true) /\ (ends c = true -> ends_in_return s = true).
  Definition tail_ok (l : list stmt) (c : list ains) : Prop := (c = [] -> forallb quiet l = true) /\ (ends c = true -> ends_in_return (Block l) = true).
  Lemma not_end s c : c <> [] -> noret c -> end_ok s c.
  Proof. intros Ne N. split; [congruence|]. rewrite ends_noret by auto. discriminate. Qed.
  Lemma gstmts_end l : Forall (fun s => forall G off K pos c D off' K', gstmt s G off K pos = Some (c, D, off', K') -> grows K' KF ->
      wfG G off -> 1 <= off -> plain K0 s = true -> end_ok s c) l ->
    forall G off K pos c D off' K', gstmts l G off K pos = Some (c, D, off', K') -> grows K' KF -> wfG G off -> 1 <= off ->
    forallb (plain K0) l = true -> tail_ok l c.
  Proof.
    induction 1 as [|s l Hs _ IH]; intros G off K pos c D off' K' H Gr W Lo Pl.
    - s4 H. split; [reflexivity|discriminate].
    - rewrite gstmts_cons in H. destruct (gstmt s G off K pos) as [[[[c1 D1] off1] K2]|] eqn:E; [|discriminate].
      destruct (gstmts l _ off1 K2 _) as [[[[c2 D2] off2] K3]|] eqn:E2; [|discriminate]. s4 H.
      cbn [forallb] in *. apply andb_true_iff in Pl. destruct Pl as [P1 P2].
      assert (Gr2 : grows K2 KF) by (eapply grows_trans; [eapply gstmts_grows; [|exact E2]|exact Gr]; apply Forall_forall; intros; apply gstmt_grows).
      pose proof (gstmt_static _ _ _ _ _ _ _ _ _ E Gr2 W Lo P1) as (A1 & A2 & A3 & A4).
      destruct (Hs _ _ _ _ _ _ _ _ E) as (B1 & B2); auto.
      destruct (IH _ _ _ _ _ _ _ _ E2) as (C1 & C2); auto; [lia|]. unfold tail_ok. cbn [forallb].
      assert (R : ends_in_return (Block (s :: l)) = if forallb quiet l then ends_in_return s || ends_in_return (Block l) else ends_in_return (Block l)) by reflexivity.
      rewrite R. split.
      + intros H. apply app_eq_nil in H. destruct H as [-> ->]. rewrite B1, C1; auto.
      + rewrite ends_app. destruct c2 as [|i c2].
        * rewrite C1 by auto. intros H. rewrite B2; auto.
        * intros H. rewrite C2 by auto. destruct (forallb quiet l); [apply orb_true_r|reflexivity].
  Qed.
  Lemma gstmt_end s : forall G off K pos c D off' K', gstmt s G off K pos = Some (c, D, off', K') -> grows K' KF ->
      wfG G off -> 1 <= off -> plain K0 s = true -> end_ok s c.
  Proof.
    assert (App : forall (a : list ains) i b, a ++ i :: b <> []) by (intros a i b H; destruct a; discriminate).
    assert (Decl : forall q x e G off K c D off' K', declare fl fns q x e G off K = Some (c, D, off', K') -> grows K' KF -> wfG G off ->
      c <> [] /\ noret c).
    { intros q x e G off K c D off' K' H Gr W. unfold declare in H. destruct (gexp G e (off + 1) K) as [[[[c1 a] off1] K2]|] eqn:E; [|discriminate]. s4 H.
      apply gexp_static in E; auto. destruct E as (A1 & A2 & A3 & A4). split; [|apply noret_app; auto; apply gcopy_noret].
      intros N. apply (f_equal len) in N. rewrite len_app, (copy_len _ _ _ _ W A3), len_nil in N. lia. }
    induction s as [x e|x e|x e|o x e|up q x|e|e|e|l IHl|c s e IHs IHe|c s IHs|i c q s IHi IHq IHs] using stmt_ind2;
      intros G off K pos cd D off' K' H Gr W Lo Pl; cbn [CompGen.gstmt plain] in H, Pl.
    - destruct e as [e|]; [destruct (Decl _ _ _ _ _ _ _ _ _ _ H Gr W); now apply not_end|]. s4 H. apply not_end; [|apply gcopy_noret].
      unfold gcopy. pose proof EX. replace (MEM_STACK + off =? 0) with false by (symmetry; apply N.eqb_neq; lia). discriminate.
    - destruct (is_lit e) eqn:Le.
      + destruct e; try discriminate Le. destruct (kaddr _ K) as [a K2] eqn:E. s4 H. split; [reflexivity|discriminate].
      + assert (Hd : declare fl fns true x e G off K = Some (cd, D, off', K')) by (destruct e; try discriminate Le; exact H).
        destruct (Decl _ _ _ _ _ _ _ _ _ _ Hd Gr W); now apply not_end.
    - destruct (lookup_var x G) as [v|] eqn:Ev; [|discriminate]. destruct (v_isconst v) eqn:Ec; [discriminate|].
      destruct (gexp G e off K) as [[[[c1 a] off1] K2]|] eqn:E; [|discriminate]. s4 H.
      pose proof (gexp_static _ _ _ _ _ _ _ _ E Gr) as (A1 & A2 & A3 & A4).
      split; [|rewrite ends_noret by (apply noret_app; auto; apply gcopy_noret); discriminate].
      intros Nil. apply app_eq_nil in Nil. destruct Nil as [-> Nc]. unfold gcopy in Nc. destruct (N.eqb_spec (v_addr v) a) as [Ea|]; [|discriminate].
      destruct (lookup_ok _ _ _ _ W Ev) as [[[_ Ct]|[Rg _]] _]; [cbn in Ct; congruence|]. cbn [snd] in Rg.
      assert (Q : match strip e with Lit _ => a < len KF | Var y => exists w, lookup_var y G = Some w /\ v_addr w = a | _ => False end).
      { clear -E Gr. induction e as [u|y|e IH|e IH|o a1 b IHa IHb|e IH|q a1 l IHa IHl|f l IHl] using exp_ind2;
          try (exact (gexp_quiet _ _ _ _ _ _ _ E)); cbn [strip].
        - cbn [CompGen.gexp] in E. destruct (kaddr (val_of u) K) as [a2 K3] eqn:E2. apply some4 in E. destruct E as (_ & <- & _ & <-). eapply kaddr_lt; eauto.
        - cbn [CompGen.gexp] in E. destruct (lookup_var y G) as [w|] eqn:E2; [|discriminate]. apply some4 in E. destruct E as (_ & <- & _ & <-). eauto.
        - exact (IH E). }
      cbn [quiet]. destruct (strip e); try contradiction; pose proof EX; [lia|]. destruct Q as (w & Ew & Ewa). apply String.eqb_eq.
      eapply lookup_same; [exact W|exact Ev|exact Ew|congruence|lia].
    - destruct (lookup_var x G) as [v|]; [|discriminate].
      destruct (gexp G e off K) as [[[[c1 a] off1] K2]|] eqn:E; [|discriminate].
      destruct (gopt fl _ _ a K2) as [[[op f] rhs] K3] eqn:E3. s4 H. apply gexp_static in E; [|eapply grows_trans; [eapply gopt_grows; exact E3|exact Gr]].
      destruct E as (A1 & A2 & A3 & A4). apply not_end; [apply App|]. apply noret_app; auto. apply noret_one; [|constructor].
      eapply gopt_noret; [exact E3|]. apply code_of_noret.
    - destruct (lookup_var x G) as [v|]; [|discriminate]. destruct (v_isconst v); [discriminate|]. destruct (kaddr _ K) as [one K2].
      assert (N : forall y z w, noret [ins (if up then OP_ADD else OP_SUB) (math_flags fl) y z w]) by (intros; apply noret_one; [now destruct up|constructor]).
      destruct q; s4 H; apply not_end; auto; try discriminate. apply noret_app; auto. apply gcopy_noret.
    - destruct (gexp G e off K) as [[[[c1 a] off1] K2]|] eqn:E; [|discriminate]. s4 H.
      pose proof (gexp_static _ _ _ _ _ _ _ _ E Gr) as (A1 & A2 & A3 & A4). split; [|rewrite ends_noret by auto; discriminate].
      intros ->. cbn [quiet]. apply gexp_quiet in E. destruct (strip e); auto; contradiction.
    - destruct (gexp G e off K) as [[[[c1 a] off1] K2]|] eqn:E; [|discriminate]. destruct (kaddr _ K2) as [m K3] eqn:E3. s4 H.
      apply gexp_static in E; [|eapply grows_trans; [eapply kaddr_grows; exact E3|exact Gr]].
      destruct E as (A1 & A2 & A3 & A4). apply not_end; [apply App|]. apply noret_app; auto. repeat (apply noret_one; [reflexivity|]). constructor.
    - destruct e as [e|].
      + destruct (gexp G e off K) as [[[[c1 a] off1] K2]|] eqn:E; [|discriminate]. s4 H. split; [|reflexivity]. rewrite app_assoc. intros N. now apply App in N.
      + s4 H. split; [discriminate|reflexivity].
    - destruct (gstmts l G off K pos) as [[[[c1 D1] off1] K2]|] eqn:E; [|discriminate]. s4 H.
      exact (gstmts_end l IHl _ _ _ _ _ _ _ _ E Gr W Lo Pl).
    - apply andb_true_iff in Pl. destruct Pl as [Pl Pe]. apply andb_true_iff in Pl. destruct Pl as [Pl Pd]. apply andb_true_iff in Pl. destruct Pl as [_ Ps].
      apply negb_true_iff in Pd.
      destruct (gexp G c off K) as [[[[c1 a] off1] K2]|] eqn:E; [|discriminate].
      destruct (gstmt s G off1 K2 _) as [[[[c2 D2] off2] K3]|] eqn:E2; [|discriminate]. destruct e as [e|].
      + destruct (gstmt e _ off2 K3 _) as [[[[c3 D3] off3] K4]|] eqn:E3; [|discriminate]. s4 H.
        apply andb_true_iff in Pe. destruct Pe as [Pe Pn]. apply negb_true_iff in Pn.
        assert (Gr3 : grows K3 KF) by (eapply grows_trans; [eapply gstmt_grows; exact E3|exact Gr]).
        apply gexp_static in E; [|eapply grows_trans; [eapply gstmt_grows; exact E2|exact Gr3]]. destruct E as (A1 & A2 & A3 & A4).
        assert (W1 : wfG G off1) by (eapply wfG_mono; [|exact W]; lia). assert (L1 : 1 <= off1) by lia.
        destruct (gstmt_static _ _ _ _ _ _ _ _ _ E2 Gr3 W1 L1 Ps) as (B1 & B2 & B3 & B4). assert (L2 : 1 <= off2) by lia.
        destruct (IHe e eq_refl _ _ _ _ _ _ _ _ E3 Gr B3 L2 Pe) as [_ C2].
        split; [intros N; now apply App in N|]. rewrite ends_cons. intros N. cbn [ends_in_return]. apply C2.
        change (ins OP_JUMPN 0 (N.of_nat (pos + Datatypes.length c1 + 1 + Datatypes.length c2 + 1)) a 0 :: c2 ++ ins OP_JUMP 0 (N.of_nat (pos + Datatypes.length c1 + 1 + Datatypes.length c2 + 1 + Datatypes.length c3)) 0 0 :: c3)
          with ((ins OP_JUMPN 0 (N.of_nat (pos + Datatypes.length c1 + 1 + Datatypes.length c2 + 1)) a 0 :: c2) ++ ins OP_JUMP 0 (N.of_nat (pos + Datatypes.length c1 + 1 + Datatypes.length c2 + 1 + Datatypes.length c3)) 0 0 :: c3) in N.
        rewrite ends_cons in N. apply ends_step in N; [tauto|reflexivity].
      + s4 H. apply gexp_static in E; [|eapply grows_trans; [eapply gstmt_grows; exact E2|exact Gr]]. destruct E as (A1 & A2 & A3 & A4).
        assert (W1 : wfG G off1) by (eapply wfG_mono; [|exact W]; lia). assert (L1 : 1 <= off1) by lia.
        destruct (IHs _ _ _ _ _ _ _ _ E2 Gr W1 L1 Ps) as [_ C2].
        split; [intros N; now apply App in N|]. rewrite ends_cons. intros N. cbn [ends_in_return]. apply C2.
        apply ends_step in N; [tauto|reflexivity].
    - destruct (gexp G c off K) as [[[[c1 a] off1] K2]|] eqn:E; [|discriminate].
      destruct (gstmt s G off1 K2 _) as [[[[c2 D2] off2] K3]|] eqn:E2; [|discriminate]. s4 H.
      split; [intros N; now apply App in N|]. rewrite ends_cons. intros N. apply ends_step in N; [|reflexivity]. destruct N as [N _]. rewrite ends_cons in N. discriminate.
    - destruct (gstmts i G off K pos) as [[[[c0 D0] off0] K2]|]; [|discriminate]. destruct (gexp _ c off0 K2) as [[[[c1 a] off1] K3]|]; [|discriminate].
      destruct (gstmt s _ off1 K3 _) as [[[[c2 D2] off2] K4]|]; [|discriminate]. destruct (gstmts q _ off2 K4 _) as [[[[c3 D3] off3] K5]|]; [|discriminate].
      s4 H. rewrite app_assoc. split; [intros N; now apply App in N|]. rewrite ends_cons. intros N. apply ends_step in N; [|reflexivity]. destruct N as [N _].
      rewrite app_assoc, ends_cons in N. discriminate.
  Qed.
End STATIC.

(** *** The meaning of programs, one step at a time *)
Section STEPS.
  Variables (catch : bool) (p : prog).
  Notation eval := (CompSpec.eval catch p).
  Notation call := (CompSpec.call catch p).
  Notation body := (CompSpec.body catch p).
  Notation exec := (CompSpec.exec catch p).
  Notation loop := (CompSpec.loop catch p).
  Notation find_func := (CompSpec.find_func p).
  Notation globals := (CompSpec.globals p).
  Lemma eval_S n d r e : eval (S n) d r e = 

      match e with
      | Lit v => Val v
      | Var x => match lookup_var x r with Some (_, v) => Val v | None => Open end
      | Not e => andthen (eval n d r e) (fun v => Val (Bool (negb (truth v))))
      | Flip e => andthen (eval n d r e) (fun v => match v with Num n => Val (Num (TOP - 1 - n)) | _ => Fail end)
      | Bin o a b => andthen (eval n d r a) (fun v => andthen (eval n d r b) (fun w => binary_op catch o v w))
      | Paren e => eval n d r e
      | Pick least a l => andthen (eval n d r a) (fun v => picks (fun e => eval n d r e) least v l)
      | Call f l => andthen (each (fun e => eval n d r e) l) (fun vs => call n d f vs)
      end.
  Proof. reflexivity. Qed.
  Lemma body_S n d g vs : body (S n) d g vs = 

      if (List.length (sf_args g) <? List.length vs)%nat then Open
      else andthen (exec n d (bind_args (sf_args g) vs ++ globals) (Block (sf_body g)))
                   (fun o => Val (match o with Go _ => Null | Back v => v end)).
  Proof. reflexivity. Qed.
  Lemma exec_S n d r s : exec (S n) d r s = 

      let change x (f : value -> res value) :=
        match lookup_var x r with
        | Some (true, _) => Fail
        | Some (false, v) => andthen (f v) (fun w => Val (Go (assign x w r)))
        | None => Open
        end in
      match s with
      | Let x None => Val (Go ((x, (false, Null)) :: r))
      | Let x (Some e) => andthen (eval n d r e) (fun v => Val (Go ((x, (false, v)) :: r)))
      | Const x e => andthen (eval n d r e) (fun v => Val (Go ((x, (true, v)) :: r)))
      | Assign x e => andthen (eval n d r e) (fun v => change x (fun _ => Val v))
      | Update o x e => andthen (eval n d r e) (fun w => change x (fun v => binary_op catch o v w))
      | Step up _ x => change x (fun v => binary_op catch (if up then OAdd else OSub) v (Num 1))
      | Do e => andthen (eval n d r e) (fun _ => Val (Go r))
      | Assert e => andthen (eval n d r e) (fun v => if truth v then Val (Go r) else Fail)
      | Return None => Val (Back Null)
      | Return (Some e) => andthen (eval n d r e) (fun v => Val (Back v))
      | Block l =>
        andthen (CompSpec.seq (fun r s => exec n d r s) r l)
                (fun o => Val (match o with Go r' => Go (leave r r') | Back v => Back v end))
      | If c s e =>
        andthen (eval n d r c)
                (fun v => if truth v then exec n d r s else match e with Some e => exec n d r e | None => Val (Go r) end)
      | While c s => loop n d r c [] s
      | For init c post s =>
        andthen (CompSpec.seq (fun r s => exec n d r s) r init)
                (fun o => match o with
                          | Go r1 => andthen (loop n d r1 c post s)
                                             (fun o => Val (match o with Go r' => Go (leave r r') | Back v => Back v end))
                          | Back v => Val (Back v)
                          end)
      end.
  Proof. reflexivity. Qed.
  Lemma loop_S n d r c post s : loop (S n) d r c post s = 

      andthen (eval n d r c)
              (fun v => if truth v
                        then andthen (exec n d r s)
                               (fun o => match o with
                                         | Go r => andthen (CompSpec.seq (fun r s => exec n d r s) r post)
                                                     (fun o => match o with Go r => loop n d r c post s | Back v => Val (Back v) end)
                                         | Back v => Val (Back v)
                                         end)
                        else Val (Go r)).
  Proof. reflexivity. Qed.
  Lemma call_S n d f vs : call (S n) d f vs = match d with O => match find_func f with Some g => Fail | None => Open end | S d => match find_func f with Some g => body n d g vs | None => Open end end.
  Proof. destruct d; reflexivity. Qed.
End STEPS.

(** a statement all ways through which return does not go on *)
Section RETURNS.
  Variables (catch : bool) (p : prog).
  Lemma returns_back s : forall n d r r', returns s = true -> exec catch p n d r s <> Val (Go r').
  Proof.
    induction s as [x e|x e|x e|o x e|up q x|e|e|e|l IHl|c s e IHs IHe|c s IHs|i c q s IHi IHq IHs] using stmt_ind2;
      intros [|n] d r r' R; try discriminate; cbn [returns] in R; rewrite exec_S; cbv beta iota zeta.
    - destruct e as [e|]; [|discriminate]. destruct (eval catch p n d r e); cbn [andthen]; discriminate.
    - assert (Q : forall r2 r'', CompSpec.seq (fun r s => exec catch p n d r s) r2 l <> Val (Go r'')).
      { induction IHl as [|s l Hs _ IH]; [discriminate|]. cbn [existsb] in R. intros r2 r''. cbn [CompSpec.seq].
        destruct (exec catch p n d r2 s) as [o| |] eqn:E; cbn [andthen]; try discriminate. destruct o as [r3|v]; [|discriminate].
        apply orb_true_iff in R. destruct R as [R|R]; [|now apply IH]. exfalso. eapply Hs; eauto. }
      specialize (Q r). destruct (CompSpec.seq _ r l) as [o| |]; cbn [andthen]; try discriminate. destruct o as [r3|v]; [|discriminate]. now edestruct Q.
    - destruct e as [e|]; [|discriminate]. apply andb_true_iff in R. destruct R as [R1 R2].
      destruct (eval catch p n d r c) as [v| |]; cbn [andthen]; try discriminate. cbn [andthen]. destruct (truth v); [now apply IHs|now apply (IHe e eq_refl)].
  Qed.
End RETURNS.
