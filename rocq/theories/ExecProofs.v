(** Remote calls: every level keeps the invariants, and the nesting is bounded by the gas *)
Require Import List Arith NArith ZArith Bool Lia.
From Verif Require Import BytesLib OrdLib VarModel InstrModel EngineModel EngineSpec EngineProofs EngineUpper ExecModel ExecSpec.
Import ListNotations.
Open Scope N_scope.

Fixpoint vnt_ind2 (P : vnt -> Prop) (H1 : P TNull) (H2 : forall b, P (TBool b)) (H3 : forall n, P (TUint n)) (H4 : forall b, P (TString b))
  (H5 : forall b, P (TBytes b)) (H6 : forall l, Forall P l -> P (TList l)) (H7 : forall l, Forall (fun e => P (snd e)) l -> P (TMap l))
  (H8 : P TBad) (t : vnt) : P t :=
  match t with
  | TNull => H1 | TBool b => H2 b | TUint n => H3 n | TString b => H4 b | TBytes b => H5 b | TBad => H8
  | TList l => H6 l ((fix go l : Forall P l := match l with [] => Forall_nil _ | t :: l => Forall_cons _ (vnt_ind2 P H1 H2 H3 H4 H5 H6 H7 H8 t) (go l) end) l)
  | TMap l => H7 l ((fix go l : Forall (fun e => P (snd e)) l :=
                       match l with [] => Forall_nil _ | e :: l => Forall_cons e (vnt_ind2 P H1 H2 H3 H4 H5 H6 H7 H8 (snd e)) (go l) end) l)
  end.

Section COPY.
  Variable E : env.
  Hypothesis bk_ok : backend_ok (e_backend E).
  Notation bk := (e_backend E).
  Section ONE.
    Variable s0 : st.
    Notation hm := (hb (inv None s0) (RmT s0)).
    Lemma hm_handle s p v : inv None s0 s -> hm s (handle E p v) any.
    Proof. intros. unfold handle. destruct p; auto with hm. Qed.
    Lemma hm_size_ok s v : inv None s0 s -> hm s (size_ok v) any.
    Proof. intros. unfold size_ok. destruct v; auto with hm; apply hm_ret; auto; exact Logic.I. Qed.
    Lemma hm_assign_to t : forall n s p, inv None s0 s -> hm s (assign_to E n p t) any.
    Proof.
      assert (forall s p t, inv None s0 s -> hm s (v <- opt (var_of t) ;; size_ok v ;;; handle E p v) any) as Hs.
      { intros s p t0 H. apply hm_bind_any; [auto with hm|]. intros v s1 H1. apply hm_bind_any; [apply hm_size_ok; auto|].
        intros ? s2 H2. apply hm_handle; auto. }
      induction t using vnt_ind2; intros nn s p HI; try (destruct nn; apply Hs; auto; fail).
      - destruct nn as [|nn]; [apply hm_throw; auto|]. simpl.
        apply hm_bind_any; [auto with hm|]. intros a s1 H1. apply hm_bind_any; [auto with hm|]. intros ? s2 H2.
        apply hm_bind_any; [|intros; apply hm_handle; auto].
        generalize 0 as i. revert s2 H2. induction H as [|t l Ht _ IH]; intros s2 H2 i; [apply hm_ret; auto; exact Logic.I|].
        apply hm_bind_any; [apply Ht; auto|]. intros ? s3 H3. apply IH; auto.
      - destruct nn as [|nn]; [apply hm_throw; auto|]. simpl.
        apply hm_bind_any; [auto with hm|]. intros a s1 H1. apply hm_bind_any; [auto with hm|]. intros ? s2 H2.
        apply hm_bind_any; [|intros; apply hm_handle; auto].
        revert s2 H2. induction H as [|(k, t) l Ht _ IH]; intros s2 H2; [apply hm_ret; auto; exact Logic.I|]. simpl in Ht.
        apply hm_bind_any; [auto with hm|]. intros v s3 H3. apply hm_bind_any; [apply hm_size_ok; auto|]. intros ? s4 H4.
        apply hm_bind_any; [destruct (key_ok v); [apply hm_ret|apply hm_throw]; auto; exact Logic.I|]. intros ? s5 H5.
        apply hm_bind_any; [auto with hm|]. intros kk s6 H6. apply hm_bind_any; [apply Ht; auto|]. intros ? s7 H7. apply IH; auto.
    Qed.
    Lemma hm_assign_var s d t : inv None s0 s -> hm s (assign_var E d t) any.
    Proof. apply hm_assign_to. Qed.
    Lemma hm_set_args args : forall s d, inv None s0 s -> hm s (set_args E args d) any.
    Proof.
      induction args as [|t args IH]; intros s d H; cbn [set_args]; [apply hm_ret; auto; exact Logic.I|].
      destruct (MEM_STATIC <=? d); [apply hm_throw; auto|]. apply hm_bind_any; [apply hm_assign_var; auto|]. intros. apply IH; auto.
    Qed.
    Lemma hm_set_deposit s c n : inv None s0 s -> hm s (set_deposit bk c n) any.
    Proof.
      intros. unfold set_deposit. cbv zeta. apply hm_bind_any; [auto with hm|]. intros ? s1 H1.
      apply hm_bind_any; [auto with hm|]. intros ? s2 H2. auto with hm.
    Qed.
  End ONE.

  (** ** two engines *)
  Definition hb2 {A} (I1 T1 I2 T2 : st -> Prop) (p : st * st) (m : MM A) : Prop :=
    match m p with Ok2 _ d s => I1 d /\ I2 s | Throw2 d s | Undefined2 d s => T1 d /\ T2 s | Fuel2 => False end.
  Section TWO.
    Variables I1 T1 I2 T2 : st -> Prop.
    Notation h2 := (hb2 I1 T1 I2 T2).
    Hypothesis IT1 : forall s, I1 s -> T1 s.
    Hypothesis IT2 : forall s, I2 s -> T2 s.
    Lemma h2_bind A B d s (m : MM A) (k : A -> MM B) :
      h2 (d, s) m -> (forall a d' s', I1 d' -> I2 s' -> h2 (d', s') (k a)) -> h2 (d, s) (bind2 m k).
    Proof. unfold hb2, bind2. intros H K. destruct (m (d, s)); auto. destruct H. apply K; auto. Qed.
    Lemma h2_ret A d s (a : A) : I1 d -> I2 s -> h2 (d, s) (ret2 a).
    Proof. unfold hb2, ret2. auto. Qed.
    Lemma h2_throw A d s : I1 d -> I2 s -> h2 (d, s) (@throw2 A).
    Proof. unfold hb2, throw2. auto. Qed.
    Lemma h2_dst A d s (m : M A) Q : hb I1 T1 d m Q -> I2 s -> h2 (d, s) (on_dst m).
    Proof. unfold hb2, hb, on_dst. intros H K. destruct (m d); intuition. Qed.
    Lemma h2_src A d s (m : M A) Q : hb I2 T2 s m Q -> I1 d -> h2 (d, s) (on_src m).
    Proof. unfold hb2, hb, on_src. intros H K. destruct (m s); intuition. Qed.
    Lemma h2_each A (f : A -> MM unit) l : (forall a d s, I1 d -> I2 s -> h2 (d, s) (f a)) ->
      forall d s, I1 d -> I2 s -> h2 (d, s) (each f l).
    Proof.
      intros H. induction l as [|a l IH]; intros d s H1 H2; simpl; [apply h2_ret; auto|].
      apply h2_bind; auto.
    Qed.
  End TWO.
  Section VCOPY.
    Variables d0 s0 : st.
    Notation h2 := (hb2 (inv None d0) (RmT d0) (inv None s0) (RmT s0)).
    Notation J1 := (inv None d0). Notation J2 := (inv None s0).
    Let IT1 := inv_T None d0. Let IT2 := inv_T None s0.
    Lemma h2_vcopy n : forall d s p v, J1 d -> J2 s -> h2 (d, s) (vcopy E n p v).
    Proof.
      induction n as [|n IH]; intros d s p v H1 H2; [apply h2_throw; auto|]. cbn [vcopy]. cbv zeta.
      assert (forall d s m, J1 d -> J2 s -> (forall d, J1 d -> hb (inv None d0) (RmT d0) d m any) -> h2 (d, s) (@on_dst unit m)) as Hd.
      { intros. eapply h2_dst; eauto. }
      apply h2_bind; [|intros; apply Hd; auto with hm].
      assert (forall v0, h2 (d, s) (on_dst (match p with PVar a => write bk a (STmp v0) | PEntry a k => write_entry bk a k (STmp v0) end))) as Hw.
      { intros. apply Hd; auto. intros. destruct p; auto with hm. }
      destruct v as [(v & stored)|]; [|apply h2_ret; auto].
      destruct v; auto.
      - apply h2_bind; [eapply h2_dst; auto with hm|]. intros heap d1 s1 K1 K2.
        apply h2_bind.
        { apply h2_bind; [eapply h2_src; auto; apply hm_read_any; auto|]. intros. apply h2_ret; auto. }
        intros o d2 s2 K3 K4. apply h2_bind; [apply IH; auto|]. intros ? d3 s3 K5 K6. apply Hd; auto. intros. destruct p; auto with hm.
      - destruct p as [dd|]; [|apply h2_throw; auto]. apply h2_bind; [apply Hd; auto with hm|]. intros ? d1 s1 K1 K2.
        apply h2_each; auto. intros i d2 s2 K3 K4. apply h2_bind; [eapply h2_src; auto; apply hm_read_entry_any; auto|].
        intros o d3 s3 K5 K6. apply IH; auto.
      - destruct p as [dd|]; [|apply h2_throw; auto]. destruct stored; [apply h2_throw; auto|].
        apply h2_bind; [apply Hd; auto with hm|]. intros ? d1 s1 K1 K2.
        apply h2_bind. { eapply h2_src with (Q := any); auto. apply hb_get. apply hm_ret; auto. exact Logic.I. }
        intros l d2 s2 K3 K4. apply h2_each; auto. intros e d3 s3 K5 K6.
        apply h2_bind; [eapply h2_src; auto; apply hm_read_any; auto|]. intros o d4 s4 K7 K8.
        apply h2_bind. { destruct o; [eapply h2_dst; auto with hm|apply h2_ret; auto]. }
        intros k d5 s5 K9 K10. apply IH; auto.
    Qed.
    Lemma h2_copy_var d s a b : J1 d -> J2 s -> h2 (d, s) (copy_var E a b).
    Proof.
      intros H1 H2. unfold copy_var. apply h2_bind; [eapply h2_src; auto; apply hm_read_any; auto|]. intros. apply h2_vcopy; auto.
    Qed.
    Lemma h2_copy_args n : forall d s i sp, J1 d -> J2 s -> h2 (d, s) (copy_args E n i sp).
    Proof.
      induction n as [|n IH]; intros d s i sp H1 H2; cbn [copy_args]; [apply h2_ret; auto|].
      apply h2_bind; [apply h2_copy_var; auto|]. intros. apply IH; auto.
    Qed.
    Lemma h2_call_setup d s n sp u a : J1 d -> J2 s -> h2 (d, s) (call_setup E n sp u a).
    Proof.
      intros H1 H2. unfold call_setup. apply h2_bind; [apply h2_copy_args; auto|]. intros ? d1 s1 K1 K2.
      eapply h2_dst; auto. apply hm_bind_any; [auto with hm|]. intros. apply hm_bind_any; [auto with hm|]. intros. auto with hm.
    Qed.
  End VCOPY.
End COPY.

(** contracts that may be called in an operation: executable ones, and the target of the operation itself; and that do run: locked too *)
Definition may (E : env) (top a : addr) : bool := runs E a || addr_eqb a top.
Definition act (E : env) (top a : addr) : bool := e_locked E a && may E top a.
Lemma act_unlocked E top a : e_locked E a = false -> act E top a = false.
Proof. unfold act. intros ->. reflexivity. Qed.

Section NODE.
  Variable E : env.
  Variable top : addr.
  Notation bk := (e_backend E).
  Hypothesis bk_ok : backend_ok bk.
  Notation IU := (IU bk (act E top)). Notation TU := (TU bk (act E top)). Notation IK := (IK bk (act E top)).
  Lemma hu_charge s0 s a : IU s0 s -> hb (IU s0) (TU s0) s (charge_contract E a) any.
  Proof.
    intros H. unfold charge_contract. apply hb_get. destruct (s_limit s <? s_gas s + e_read_cost E a); [eapply hu_throw; eauto|].
    apply lift_any; auto with hm.
  Qed.
  Lemma fetch_val s0 s a : IU s0 s -> hb (IU s0) (TU s0) s (fetch E a) (fun c _ => c = contract_of E a).
  Proof.
    intros H. unfold fetch, contract_of. apply hb_get.
    destruct (addr_eqb a (e_txid E) && match e_deploy E with Some _ => true | None => false end); [apply hb_ret; auto|].
    destruct (existsb (addr_eqb a) (s_fetched s)); [apply hb_ret; auto|].
    eapply hb_bind; [apply hu_charge; auto|]. intros ? s1 H1 _. destruct (e_contract E a); [|apply hb_ret; auto].
    eapply hb_bind with (Q := any); [|intros; apply hb_ret; auto]. apply hu_modify; simpl; auto using RW_refl, VB_refl; try lia. destruct H1; auto.
  Qed.
  Lemma opt_val {A} s0 s (o : option A) : IU s0 s -> hb (IU s0) (TU s0) s (opt o) (fun a _ => o = Some a).
  Proof. intros H. destruct o; cbn [opt]; [apply hb_ret; auto|eapply hu_throw; eauto]. Qed.
  Lemma hu_fetch s0 s a : IU s0 s -> hb (IU s0) (TU s0) s (fetch E a) any.
  Proof. intros H. eapply hb_conseq; [apply fetch_val; auto|]. intros. exact Logic.I. Qed.
  Lemma hu_read_contract s a f d : mints_ok s -> st_ok s -> hb (IU s) (TU s) s (read_contract E a f d) any.
  Proof.
    intros Mi O. unfold read_contract. apply hu_bind; [apply hu_fetch; apply IU_refl; auto|]. intros c s1 H1.
    apply hu_bind; [apply lift_any; auto with hm|]. intros c' s2 H2.
    apply hu_bind; [apply lift_any; auto; intros; apply hm_assign_var; auto|]. intros. apply lift_any; auto with hm.
  Qed.
  Lemma ik_settle s0 outs : act E top (s_contract s0) = true -> forall s, IK s0 s -> hb (IK s0) (TU s0) s (settle E outs) (fun _ s' => s_gas s' = s_gas s).
  Proof.
    intros L. induction outs as [|o outs IH]; intros s H; cbn [settle]; [apply hb_ret; auto|]. apply hb_get.
    destruct (cache_balance bk (s_ram s) (s_contract s) (to_currency o)) as ([n|] & r) eqn:C.
    2:{ eapply hb_bind with (Q := fun _ _ => False); [apply ik_throw; auto|intros; contradiction]. }
    destruct (n <? to_amount o) eqn:LT.
    { eapply hb_bind with (Q := fun _ _ => False); [apply ik_throw; auto|intros; contradiction]. }
    apply N.ltb_ge in LT. eapply hb_bind with (Q := fun _ s' => s_gas s' = s_gas s).
    { apply hb_modify; auto. destruct H as [H1 H2 H3 H4 H5 H6].
      assert (RW bk (act E top) (s_world s) (mk_world (ram_set_balance r (s_contract s) (to_currency o) (n - to_amount o)) (w_outs (s_world s) ++ [o])
                (((s_contract s, to_currency o), to_amount o) :: w_spend (s_world s)))) as RS.
      { apply RW_spend; auto. congruence. }
      split; auto.
      - eapply RW_trans; eauto.
      - destruct H6 as (K1 & K2). split; auto. apply (rw_ok _ _ _ _ RS). auto. }
    intros ? s1 H1 G1. eapply hb_conseq; [apply IH; auto|]. intros ? s2 _ G2. simpl in *. congruence.
  Qed.
  Lemma ik_finish s0 s : act E top (s_contract s0) = true -> IK s0 s -> hb (IK s0) (TU s0) s (finish E) (fun _ s' => s_gas s' = s_gas s).
  Proof.
    intros L H. unfold finish. apply hb_get. eapply hb_bind; [apply ik_settle; auto|]. intros ? s1 H1 G. apply hb_modify; auto.
    destruct H1 as [H1 H2 H3 H4 H5 H6]. split; auto.
    - eapply RW_trans; [exact H4|]. simpl. eapply RW_mint; [|exact H5]. congruence.
  Qed.
  Lemma fuel_enough n : n < INSTR_COST * N.of_nat (fuel_of n).
  Proof.
    unfold fuel_of. rewrite Nnat.Nat2N.inj_succ, Nnat.N2Nat.id. unfold INSTR_COST.
    pose proof (N.div_mod n 20 ltac:(discriminate)) as D. pose proof (N.mod_lt n 20 ltac:(discriminate)) as L.
    set (q := n / 20) in *. set (r := n mod 20) in *. clearbody q r. lia.
  Qed.
  Variable lim : N.
  Lemma ik_run_method s0 s rc dep m :
    (forall s n k j, mints_ok s -> st_ok s -> s_limit s <= lim -> hb (IU s) (TU s) s (rc dep n k j) any) ->
    act E top (s_contract s0) = true -> s_limit s0 <= lim -> IK s0 s ->
    hb (IK s0) (TU s0) s (run_method E rc dep m) (fun _ s' => s_gas s' <= s_limit s').
  Proof.
    intros RC L LL H. unfold run_method. apply ik_bind; [apply ik_mem; auto with hm|]. intros ? s1 H1.
    apply ik_bind; [apply ik_mem; auto with hm|]. intros ? s2 H2. apply hb_get.
    eapply hb_bind.
    { apply ik_execute with (lim := lim); auto.
      - intros. apply hu_read_contract; auto.
      - apply Nat.lt_0_succ.
      - rewrite <- (ik_limit _ _ _ _ H2). apply fuel_enough. }
    intros ? s3 H3 G. simpl in G. eapply hb_conseq; [apply ik_finish; auto|]. intros ? s4 H4 G4. simpl in G4.
    rewrite G4, (ik_limit _ _ _ _ H4). rewrite (ik_limit _ _ _ _ H3) in G. auto.
  Qed.
  (** the contract is locked when the method was prepared *)
  Lemma ik_prepare s0 s bin name is_init : may E top (s_contract s0) = true -> IK s0 s ->
    hb (IK s0) (TU s0) s (prepare E bin name is_init) (fun _ _ => act E top (s_contract s0) = true).
  Proof.
    intros MY H. unfold prepare. apply hb_get. rewrite (ik_contract _ _ _ _ H). unfold act. rewrite MY, andb_true_r.
    destruct (e_locked E (s_contract s0)); [|eapply hb_bind with (Q := fun _ _ => False); [apply ik_throw; auto|intros; contradiction]].
    apply ik_bind; [apply ik_ret; auto|]. intros ? s1 H1.
    apply ik_bind; [apply ik_up; auto; apply hu_charge; destruct H1; apply IU_refl; auto|]. intros ? s2 H2.
    apply ik_bind; [apply ik_mem; auto with hm|]. intros b s3 H3. apply ik_bind; [apply ik_mem; auto with hm|]. intros m s4 H4.
    apply ik_bind; [destruct (if is_init then m_init m else m_public m); [apply ik_ret|apply ik_throw]; auto|]. intros ? s5 H5.
    apply ik_bind; [apply ik_load_binary; auto|]. intros. apply hb_ret; auto.
  Qed.
End NODE.

Section NESTED.
  Variable E : env.
  Variable top : addr.
  Notation bk := (e_backend E).
  Hypothesis bk_ok : backend_ok bk.
  Notation IU := (IU bk (act E top)). Notation TU := (TU bk (act E top)). Notation IK := (IK bk (act E top)).
  (** the child and its caller *)
  Lemma h2_call_child s0 c0 lim rm bin dep name setup :
    may E top (s_contract c0) = true -> st_ok s0 -> mints_ok c0 -> st_ok c0 -> s_limit c0 <= lim ->
    (forall d m, IK c0 d -> act E top (s_contract c0) = true -> hb (IK c0) (TU c0) d (rm dep m) (fun _ s' => s_gas s' <= s_limit s')) ->
    (forall d s, IK c0 d -> inv None s0 s -> hb2 (IK c0) (TU c0) (inv None s0) (RmT s0) (d, s) setup) ->
    match call_child E rm bin dep name setup (c0, s0) with
    | Ok2 _ d s => (IK c0 d /\ inv None s0 s) /\ s_gas d <= s_limit d
    | Throw2 d s | Undefined2 d s => TU c0 d /\ RmT s0 s
    | Fuel2 => False
    end.
  Proof.
    intros MY Os Mc Oc L Hr Hs. unfold call_child.
    pose proof (IK_refl bk (act E top) c0 Mc Oc) as C0. pose proof (inv_refl None s0 Os) as S0.
    assert (hb2 (IK c0) (TU c0) (inv None s0) (RmT s0) (c0, s0) (if e_hf2 E then ret2 tt else setup)) as X.
    { destruct (e_hf2 E); [apply h2_ret|apply Hs]; auto. }
    unfold bind2 at 1. unfold hb2 in X. destruct ((if e_hf2 E then ret2 tt else setup) (c0, s0)) as [u d1 s1|d1 s1|d1 s1|]; auto.
    destruct X as (D1 & S1). unfold bind2 at 1, on_dst at 1.
    pose proof (ik_prepare E top bk_ok c0 d1 bin name false MY D1) as Y. unfold hb in Y.
    destruct (prepare E bin name false d1) as [m d2|d2|d2|]; auto.
    2:{ split; auto. eapply inv_T; eauto. }
    2:{ split; auto. eapply inv_T; eauto. }
    destruct Y as (D2 & LK).
    assert (hb2 (IK c0) (TU c0) (inv None s0) (RmT s0) (d2, s1) (if e_hf2 E then setup else ret2 tt)) as Z.
    { destruct (e_hf2 E); [apply Hs|apply h2_ret]; auto. }
    unfold bind2 at 1. unfold hb2 in Z. destruct ((if e_hf2 E then setup else ret2 tt) (d2, s1)) as [u2 d3 s3|d3 s3|d3 s3|]; auto.
    destruct Z as (D3 & S3). unfold on_dst. pose proof (Hr d3 m D3 LK) as W. unfold hb in W.
    destruct (rm dep m d3) as [u4 d4|d4|d4|]; auto.
    - destruct W. auto.
    - split; auto. eapply inv_T; eauto.
    - split; auto. eapply inv_T; eauto.
  Qed.
  Lemma IU_set_world s0 s w : IU s0 s -> RW bk (act E top) (s_world s) w -> IU s0 (set_world w s).
  Proof.
    intros H R. eapply IU_ext; eauto; simpl; auto using VB_refl; try lia. destruct H; auto.
  Qed.
  Lemma st_ok_new a v l ro w : ram_ok (w_ram w) -> st_ok (engine_new a v l ro w).
  Proof. intros. split; auto. split; intros ? ? *; simpl; tauto. Qed.
  Lemma mints_ok_new a v l ro w : mints_ok (engine_new a v l ro w).
  Proof. constructor. Qed.
  Theorem rc_ok n : forall dep name method nargs s, 0 < e_fee_exec E -> mints_ok s -> st_ok s -> s_limit s < e_fee_exec E * N.of_nat n ->
    hb (IU s) (TU s) s (remote_call E n dep name method nargs) any.
  Proof.
    induction n as [|n IH]; intros dep name method nargs s LF Mi O L; [lia|]. cbn [remote_call].
    pose proof (IU_refl bk (act E top) s Mi O) as H.
    apply hu_bind; [apply lift_any; auto with hm|]. intros address s1 H1.
    eapply hb_bind; [apply fetch_val; auto|]. intros c s2 H2 CV.
    eapply hb_bind; [apply opt_val; auto|]. intros c' s3 H3 CV'.
    eapply hb_bind; [apply opt_val; auto|]. intros ex s4 H4 KX. simpl in CV, CV', KX.
    assert (may E top address = true) as MY. { unfold may, runs. rewrite <- CV, CV', KX. reflexivity. }
    eapply hb_bind with (Q := fun _ s' => e_fee_exec E <= s_gas s').
    { unfold add_gas. apply hb_modify; [|simpl; lia]. eapply IU_ext; eauto using RW_refl; simpl; auto using RW_refl, VB_refl; try lia. destruct H4; auto. }
    intros ? s5 H5 G5. simpl in G5.
    eapply hb_bind with (Q := fun _ s' => e_fee_exec E <= s_gas s' /\ s_gas s' <= s_limit s').
    { unfold hb, check_gas. destruct (s_limit s5 <? s_gas s5) eqn:Eq.
      - destruct (IU_TU _ _ _ _ H5). split; auto.
      - split; auto. split; auto. apply N.ltb_ge in Eq. auto. }
    intros ? s6 H6 (G6 & G6').
    eapply hb_bind with (Q := fun _ s' => s' = s6).
    { unfold get_frame. apply hb_get. destruct (s_frames s6); [eapply hu_throw; eauto|apply hb_ret; auto]. }
    intros f s7 H7 ->. simpl in G6, G6'.
    assert (s_limit s6 = s_limit s) as LE. { destruct H6 as [F]. unfold fixed in F. congruence. }
    unfold hb. cbv zeta.
    set (child := engine_new address (e_version E) (s_limit s6 - N.min (s_gas s6) (s_limit s6)) false (s_world s6)).
    assert (st_ok s6) as O6 by (destruct H6; auto).
    assert (mints_ok child) as Mc by apply mints_ok_new.
    assert (st_ok child) as Oc. { apply st_ok_new. destruct O6; auto. }
    set (lim := s_limit s - e_fee_exec E).
    assert (s_limit child <= lim) as Lc. { unfold child, lim. simpl. lia. }
    assert (lim < e_fee_exec E * N.of_nat n) as Ln. { unfold lim. lia. }
    pose proof (h2_call_child s6 child lim (run_method E (remote_call E n)) (fst ex) (snd ex) method
                  (call_setup E nargs (MEM_STACK + snd f) (s_contract s6) address) MY O6 Mc Oc Lc) as X.
    match type of X with ?A -> ?B -> _ => assert A as XA; [|assert B as XB; [|specialize (X XA XB)]] end.
    { intros d m D LK. apply ik_run_method with (lim := lim); auto. intros. apply IH; auto. lia. }
    { intros d s8 D S8.
      pose proof (h2_call_setup E bk_ok d s6 d s8 nargs (MEM_STACK + snd f) (s_contract s6) address) as Y.
      assert (inv None d d) as DD. { apply inv_refl. destruct D; auto. }
      specialize (Y DD S8). unfold hb2 in *. destruct (call_setup E nargs (MEM_STACK + snd f) (s_contract s6) address (d, s8)); auto.
      - destruct Y as ((Y1 & Y1') & Y2). split; auto. eapply IK_IU; eauto. eapply Rm_IU; eauto. destruct D; apply IU_refl; auto.
      - destruct Y as (Y1 & Y2). split; auto. eapply IK_TU2; eauto. eapply RmT_TU; eauto. destruct D; apply IU_refl; auto.
      - destruct Y as (Y1 & Y2). split; auto. eapply IK_TU2; eauto. eapply RmT_TU; eauto. destruct D; apply IU_refl; auto. }
    clear XA XB.
    destruct (call_child E (run_method E (remote_call E n)) (fst ex) (snd ex) method
                         (call_setup E nargs (MEM_STACK + snd f) (s_contract s6) address) (child, s6)) as [u d1 s8|d1 s8|d1 s8|]; auto.
    - destruct X as ((D1 & (S8 & S8')) & G). assert (IU s s8) as K8. { eapply Rm_IU; eauto. }
      assert (s_world s8 = s_world s6) as W8. { destruct S8. apply rest_world; auto. }
      set (s9 := set_world (s_world d1) s8).
      assert (IU s s9) as K9. { apply IU_set_world; auto. rewrite W8. exact (ik_world _ _ _ _ D1). }
      pose proof (h2_copy_var E bk_ok s9 d1 s9 d1 (MEM_STACK + snd f) MEM_STACK) as Y.
      assert (inv None s9 s9) as I9. { apply inv_refl. destruct K9; auto. }
      assert (inv None d1 d1) as I1. { apply inv_refl. destruct D1; auto. }
      specialize (Y I9 I1). unfold hb2 in Y.
      destruct (copy_var E (MEM_STACK + snd f) MEM_STACK (s9, d1)) as [u2 s10 d2|s10 d2|s10 d2|]; auto.
      + destruct Y as ((Y1 & Y1') & Y2).
        assert (IU s s10) as K10. { eapply Rm_IU; eauto. }
        assert (hb (IU s) (TU s) s10 (add_gas (s_gas d2) ;;; check_gas) any) as Z.
        { apply hu_bind; [apply lift_any; auto with hm|]. intros. apply lift_any; auto with hm. }
        exact Z.
      + destruct Y as (Y1 & Y2). eapply RmT_TU; eauto.
      + destruct Y as (Y1 & Y2). eapply RmT_TU; eauto.
    - destruct X as (D1 & S8). pose proof (RmT_TU _ _ _ _ _ H6 S8) as T8. destruct T8, D1. split; auto. simpl.
      destruct S8 as [S8 _]. rewrite (rest_world _ _ S8) in tu_world. eapply RW_trans; eauto.
    - destruct X as (D1 & S8). pose proof (RmT_TU _ _ _ _ _ H6 S8) as T8. destruct T8, D1. split; auto. simpl.
      destruct S8 as [S8 _]. rewrite (rest_world _ _ S8) in tu_world. eapply RW_trans; eauto.
  Qed.
End NESTED.

Section CALL.
  Variable E : env.
  Notation bk := (e_backend E).
  Hypothesis bk_ok : backend_ok bk.
  Variable top : addr.
  Notation IU := (IU bk (act E top)). Notation TU := (TU bk (act E top)). Notation IK := (IK bk (act E top)).
  Lemma ik_start_setup s0 s a u : IK s0 s -> hb (IK s0) (TU s0) s (start_setup E a u) (fun _ s' => s_world s' = s_world s).
  Proof.
    intros H. unfold start_setup.
    assert (forall s s', Rm None s s' -> s_world s' = s_world s) as RWE. { intros ? ? []. apply rest_world; auto. }
    assert (forall s1 a r, IK s0 s1 -> s_world s1 = s_world s -> hb (IK s0) (TU s0) s1 (write bk a r) (fun _ s' => s_world s' = s_world s)) as HW.
    { intros s1 b r H1 W1. apply ik_mem; auto. intros. eapply hb_conseq; [apply hm_write; auto|]. intros ? s2 (R & _) _. rewrite (RWE _ _ R). auto. }
    eapply hb_bind with (Q := fun _ s' => s_world s' = s_world s).
    { destruct u as [u|]; [|apply HW; auto].
      eapply hb_bind with (Q := fun _ s' => s_world s' = s_world s); [|intros; apply HW; auto].
      unfold charge_contract. apply hb_get. destruct (s_limit s <? s_gas s + e_read_cost E u); [apply ik_throw; auto|].
      apply hb_modify; auto. destruct H; split; auto. simpl. lia. }
    intros ? s1 H1 W1. eapply hb_bind; [apply HW; auto|]. intros ? s2 H2 W2. apply HW; auto.
  Qed.
  Definition dep_ram (deposit : option (addr * N)) (w : world) (c : addr) : ram :=
    match deposit with
    | Some (cur, amount) =>
      let '(n, r) := cache_balance bk (w_ram w) c cur in
      ram_set_balance r c cur (amount + match n with Some n => n | None => 0 end)
    | None => w_ram w
    end.
  Definition dep_world deposit w c := set_w_ram (dep_ram deposit w c) w.
  Lemma dep_world_ok deposit w c : ram_ok (w_ram w) -> ram_ok (w_ram (dep_world deposit w c)).
  Proof.
    intros H. unfold dep_world, dep_ram. destruct deposit as [(cur, n)|]; simpl; auto.
    unfold cache_balance. destruct (ram_balance (w_ram w) c cur); [exact H|]. destruct (bk_balance bk c cur); exact H.
  Qed.
  Lemma dep_world_storage deposit w c d : same_storage bk d w (dep_world deposit w c).
  Proof.
    unfold dep_world, dep_ram. destruct deposit as [(cur, n)|]; [|split; [|split]; reflexivity].
    unfold cache_balance. destruct (ram_balance (w_ram w) c cur); [split; [|split]; reflexivity|].
    destruct (bk_balance bk c cur); split; [|split| |split]; reflexivity.
  Qed.
  Lemma dep_world_balance deposit w a c cur :
    balance_of bk (dep_world deposit w a) c cur = balance_of bk w c cur + deposited deposit a c cur.
  Proof.
    unfold dep_world, dep_ram, deposited. destruct deposit as [(cur', n)|]; [|simpl; unfold set_w_ram; destruct w; simpl; lia].
    destruct (cache_balance bk (w_ram w) a cur') as (m & r) eqn:C.
    pose proof (cache_balance_val _ _ _ _ _ _ C) as V. pose proof (RW_balance bk (fun _ => false) _ _ _ _ _ C) as B.
    pose proof (rw_bal _ _ _ _ B c cur) as B'. change (spent (set_w_ram r w) c cur) with (spent w c cur) in B'.
    assert (balance_of bk (set_w_ram r w) c cur = balance_of bk w c cur) as B2 by lia. clear B B'.
    unfold balance_of at 1, ram_balance. simpl. 
    destruct (bal_eqb_spec (c, cur) (a, cur')) as [EQ|NE].
    - injection EQ as -> ->. rewrite !addr_eqb_refl. simpl. rewrite V. lia.
    - replace (addr_eqb a c && addr_eqb cur' cur) with false.
      + change (balance_of bk (set_w_ram r w) c cur = balance_of bk w c cur + 0). rewrite B2. lia.
      + destruct (addr_eqb_spec a c), (addr_eqb_spec cur' cur); simpl; congruence.
  Qed.
  Lemma ik_op_setup s0 s d args : IK s0 s -> hb (IK s0) (TU s0) s (op_setup E d args) any.
  Proof.
    intros H. unfold op_setup. apply ik_bind.
    - destruct d as [(c, n)|]; [|apply ik_ret; auto]. apply ik_mem; auto. intros. apply hm_set_deposit; auto.
    - intros. apply ik_mem; auto. intros. apply hm_set_args; auto.
  Qed.
  (** a call: the state of the engine at the end *)
  Lemma call_ok_top depth ex address user deposit name args is_init limit w : address = top ->
    0 < e_fee_exec E -> ram_ok (w_ram w) -> limit < e_fee_exec E * N.of_nat depth ->
    match exec_call E depth ex address user deposit name args is_init (engine_new address (e_version E) limit false w) with
    | Ok _ s => s_gas s <= limit /\ RW bk (act E top) (dep_world deposit w address) (s_world s)
    | Throw s | Undefined s => RW bk (act E top) w (s_world s) \/ RW bk (act E top) (dep_world deposit w address) (s_world s)
    | Fuel => False
    end.
  Proof.
    intros TOP LF HW L. set (s0 := engine_new address (e_version E) limit false w).
    assert (IK s0 s0) as K0. { apply IK_refl; [constructor|apply st_ok_new; auto]. }
    unfold exec_call. unfold bind at 1.
    pose proof (ik_start_setup s0 s0 address user K0) as X. unfold hb in X.
    destruct (start_setup E address user s0) as [u s1|s1|s1|]; auto.
    2:{ left. exact (tu_world _ _ _ _ X). } 2:{ left. exact (tu_world _ _ _ _ X). }
    destruct X as (K1 & W1). simpl in W1.
    unfold bind at 1.
    assert (exists s2, add_deposit E deposit s1 = Ok tt s2 /\ s2 = set_world (dep_world deposit w address) s1) as (s2 & E2 & ES).
    { unfold add_deposit, dep_world, dep_ram. destruct deposit as [(cur, n)|].
      - unfold bind, get. rewrite (ik_contract _ _ _ _ K1). unfold s_ram. rewrite W1. simpl.
        destruct (cache_balance bk (w_ram w) address cur) as (m & r). eexists. split; [reflexivity|].
        unfold set_ram. rewrite W1. reflexivity.
      - eexists. split; [reflexivity|]. unfold set_w_ram. destruct s1. simpl in *. subst. destruct w; reflexivity. }
    rewrite E2.
    assert (IK s2 s2) as K2.
    { apply IK_refl.
      - subst s2. destruct K1. exact ik_mints.
      - subst s2. destruct K1 as [_ _ _ _ _ (O1 & O2)]. split; auto. apply dep_world_ok; auto. }
    assert (s_world s2 = dep_world deposit w address) as W2 by (subst s2; reflexivity).
    assert (s_limit s2 = limit) as L2. { subst s2. simpl. rewrite (ik_limit _ _ _ _ K1). reflexivity. }
    assert (s_contract s2 = address) as C2. { subst s2. simpl. rewrite (ik_contract _ _ _ _ K1). reflexivity. }
    assert (hb (IK s2) (TU s2) s2
              ((if e_hf2 E then ret tt else op_setup E deposit args) ;;;
               m <- prepare E (fst ex) name is_init ;;
               (if e_hf2 E then op_setup E deposit args else ret tt) ;;;
               run_method E (remote_call E depth) (snd ex) m) (fun _ s' => s_gas s' <= s_limit s')) as H.
    { apply ik_bind; [destruct (e_hf2 E); [apply ik_ret; auto|apply ik_op_setup; auto]|]. intros ? s3 K3.
      eapply hb_bind; [apply ik_prepare; auto; rewrite C2, TOP; unfold may; now rewrite addr_eqb_refl, orb_true_r|]. intros m s4 K4 LK. simpl in LK.
      apply ik_bind; [destruct (e_hf2 E); [apply ik_op_setup; auto|apply ik_ret; auto]|]. intros ? s5 K5.
      apply ik_run_method with (lim := limit); auto; [|lia].
      intros. apply rc_ok; auto. lia. }
    unfold hb in H.
    match type of H with match ?t with _ => _ end => change t with (((if e_hf2 E then ret tt else op_setup E deposit args) ;;;
               m <- prepare E (fst ex) name is_init ;;
               (if e_hf2 E then op_setup E deposit args else ret tt) ;;;
               run_method E (remote_call E depth) (snd ex) m) s2) in H end.
    match goal with |- match ?t with _ => _ end => destruct t as [u' s3|s3|s3|] end; auto.
    - destruct H as (K3 & G). rewrite (ik_limit _ _ _ _ K3), L2 in G. split; auto. rewrite <- W2. exact (ik_world _ _ _ _ K3).
    - right. rewrite <- W2. exact (tu_world _ _ _ _ H).
    - right. rewrite <- W2. exact (tu_world _ _ _ _ H).
  Qed.
End CALL.
Theorem call_ok E (bk_ok : backend_ok (e_backend E)) depth ex address user deposit name args is_init limit w :
  0 < e_fee_exec E -> ram_ok (w_ram w) -> limit < e_fee_exec E * N.of_nat depth ->
  match exec_call E depth ex address user deposit name args is_init (engine_new address (e_version E) limit false w) with
  | Ok _ s => s_gas s <= limit /\ RW (e_backend E) (act E address) (dep_world E deposit w address) (s_world s)
  | Throw s | Undefined s => RW (e_backend E) (act E address) w (s_world s) \/ RW (e_backend E) (act E address) (dep_world E deposit w address) (s_world s)
  | Fuel => False
  end.
Proof. intros. apply call_ok_top; auto. Qed.
