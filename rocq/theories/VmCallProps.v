(** C53, C54: the parts that hold *)
Require Import List Arith NArith ZArith Bool Lia.
From Verif Require Import BytesLib OrdLib VarModel InstrModel EngineModel EngineSpec ExecModel ExecSpec EngineProofs EngineUpper EngineVis ExecProofs ExecCases VmSafeProofs VmCallProofs.
Import ListNotations.
Open Scope N_scope.

(** [called E n dep name method nargs s m c child]: in state [s] of the caller, the remote call of [method] of the contract that
    [name] stands for found the method [m]; its code ran to its end, in state [c] of the engine of the called contract,
    and that engine was left in state [child]. *)
Definition called (E : env) (n : nat) (dep : list (bytes * addr)) (name meth : bytes) (nargs : N) (s : st) (m : method) (c child : st) : Prop :=
  exists address k ex b ip sp fs s1 s2 c0 c1,
    lfind addr_eqb name dep = Some address /\ fetch E address s = Ok (Some k) (set_gas (s_gas s1 - e_fee_exec E) s1) /\
    k_exec k = Some ex /\ e_binary E (fst ex) = Some b /\ lfind addr_eqb meth (b_methods b) = Some m /\ m_public m = true /\
    s_frames s = (ip, sp) :: fs /\
    call_child E (run_method E (remote_call E n)) (fst ex) (snd ex) meth
        (call_setup E nargs (MEM_STACK + sp) (s_contract s1) address)
        (engine_new address (e_version E) (s_limit s1 - s_gas s1) false (s_world s1), s1) = Ok2 tt child s2 /\
    begin (m_entry m) c0 = Ok tt c1 /\
    run (e_backend E) (e_ext E) (remote_call E n (snd ex)) (read_contract E) (fuel_of (s_limit c0)) c1 = Ok tt c /\ s_frames c = [].

(** The value that a const method leaves as its return value, when it is not a reference or a container, is what the caller
    finds where it expects it.  Missing: containers (copied deeply), and methods that are not const, for which it is false. *)
Theorem C53_const_methods_partial : forall E n dep name meth nargs s s', remote_call E (S n) dep name meth nargs s = Ok tt s' ->
  exists m c child, called E n dep name meth nargs s m c child /\
    (m_const m = true -> forall v, flat v = true -> visible (e_backend E) c MEM_STACK = Some v ->
     forall ip sp fs, s_frames s = (ip, sp) :: fs -> visible (e_backend E) s' (MEM_STACK + sp) = Some v).
Proof.
  intros E n dep name meth nargs s s' H. apply remote_parts in H.
  destruct H as (ad & k & ex & ip & sp & fs & s1 & child & s2 & s3 & child2 & H1 & H2 & H3 & H4 & H5 & H6 & H7 & H8 & H9 & H10 & H11).
  destruct (call_child_parts _ _ _ _ _ _ _ _ _ _ H8) as (b & m & c0 & c1 & c2 & K1 & K2 & K3 & K4 & K5 & K6 & K7).
  exists m, c2, child. split.
  - exists ad, k, ex, b, ip, sp, fs, s1, s2, c0, c1. repeat (split; auto).
  - intros MC v F V ip' sp' fs' Hf. rewrite H3 in Hf. injection Hf as <- <- <-. subst s'.
    rewrite <- (K7 MC) in V by reflexivity. pose proof (copy_var_flat _ _ _ _ MEM_STACK _ _ _ v ltac:(reflexivity) F V H9) as X.
    exact X.
Qed.
Print Assumptions C53_const_methods_partial.

Lemma fetch_gas E a s c s' : fetch E a s = Ok c s' -> s_gas s <= s_gas s'.
Proof.
  unfold fetch. intros H. apply bind_ok in H as (s1 & s2 & E1 & H). injection E1 as <- <-.
  destruct (_ && _). { apply ok_inj in H as (_ & <-). lia. }
  destruct (existsb _ _). { apply ok_inj in H as (_ & <-). lia. }
  apply bind_ok in H as (u & s2 & E2 & H).
  assert (s_gas s <= s_gas s2) as G.
  { unfold charge_contract in E2. apply bind_ok in E2 as (u1 & s3 & E3 & E2). injection E3 as <- <-.
    destruct (_ <? _); [discriminate|]. unfold add_gas, modify in E2. apply ok_inj in E2 as (_ & <-). simpl. lia. }
  destruct (e_contract E a).
  - apply bind_ok in H as (u1 & s3 & E3 & H). unfold modify in E3. apply ok_inj in E3 as (_ & <-). apply ok_inj in H as (_ & <-). auto.
  - apply ok_inj in H as (_ & <-). auto.
Qed.
(** A remote call that returns charges its caller for the call and for all the gas that the called contract used, with that
    of the contracts which it called in turn, and the sum is within the limit of the caller.  Missing: calls that fail, for
    which it is false. *)
Theorem C54_completed_calls_partial : forall E n dep name meth nargs s s',
  backend_ok (e_backend E) -> 0 < e_fee_exec E -> mints_ok s -> st_ok s -> s_limit s < e_fee_exec E * N.of_nat (S n) ->
  remote_call E (S n) dep name meth nargs s = Ok tt s' ->
  exists m c child, called E n dep name meth nargs s m c child /\
    s_gas s + e_fee_exec E + s_gas child <= s_gas s' /\ s_gas s' <= s_limit s'.
Proof.
  intros E n dep name meth nargs s s' BK LF Mi O L H.
  assert (FV : forall ad k s1, fetch E ad s = Ok (Some k) s1 -> mints_ok s1 /\ st_ok s1 /\ s_limit s1 = s_limit s /\ (forall ex, k_exec k = Some ex -> may E [] ad = true)).
  { intros ad k s1 HF. pose proof (IU_refl (e_backend E) (act E []) s Mi O) as I0.
    pose proof (fetch_val E [] s s ad I0) as X. unfold hb in X. rewrite HF in X. destruct X as (X & CV). destruct X. unfold fixed in iu_fixed. split; auto. split; auto.
    split; [congruence|]. intros ex KX. unfold may, runs. simpl in CV. rewrite <- CV, KX. reflexivity. }
  apply remote_parts in H.
  destruct H as (ad & k & ex & ip & sp & fs & s1 & child & s2 & s3 & child2 & H1 & H2 & H3 & H4 & H5 & H6 & H7 & H8 & H9 & H10 & H11).
  destruct (call_child_parts _ _ _ _ _ _ _ _ _ _ H8) as (b & m & c0 & c1 & c2 & K1 & K2 & K3 & K4 & K5 & K6 & K7).
  exists m, c2, child. split.
  { exists ad, k, ex, b, ip, sp, fs, s1, s2, c0, c1. repeat (split; auto). }
  split; auto.
  destruct (FV _ _ _ H5) as (M1 & O1 & L1 & MY). specialize (MY _ H2). clear FV. pose proof (fetch_gas _ _ _ _ _ H5) as G1.
  cbn [s_gas set_gas s_limit] in G1, L1.
  assert (mints_ok s1) as M2 by exact M1. assert (st_ok s1) as O2 by exact O1.
  set (ch := engine_new ad (e_version E) (s_limit s1 - s_gas s1) false (s_world s1)) in *.
  assert (mints_ok ch) as Mc by apply mints_ok_new.
  assert (st_ok ch) as Oc. { apply st_ok_new. destruct O2; auto. }
  set (lim := s_limit s - e_fee_exec E).
  assert (s_limit ch <= lim) as Lc. { unfold ch, lim. simpl. lia. }
  assert (lim < e_fee_exec E * N.of_nat n) as Ln. { unfold lim. lia. }
  pose proof (h2_call_child E [] BK s1 ch lim (run_method E (remote_call E n)) (fst ex) (snd ex) meth
                (call_setup E nargs (MEM_STACK + sp) (s_contract s1) ad) MY O2 Mc Oc Lc) as X.
  match type of X with ?A -> ?B -> _ => assert A as XA; [|assert B as XB; [|specialize (X XA XB)]] end.
  { intros d m' D LK. apply ik_run_method with (lim := lim); auto. intros. apply rc_ok; auto. lia. }
  { intros d s8 D S8.
    pose proof (h2_call_setup E BK d s1 d s8 nargs (MEM_STACK + sp) (s_contract s1) ad) as Y.
    assert (inv None d d) as DD. { apply inv_refl. destruct D; auto. }
    specialize (Y DD S8). unfold hb2 in *. destruct (call_setup E nargs (MEM_STACK + sp) (s_contract s1) ad (d, s8)); auto.
    - destruct Y as ((Y1 & Y1') & Y2). split; auto. eapply IK_IU; eauto. eapply Rm_IU; eauto. destruct D; apply IU_refl; auto.
    - destruct Y as (Y1 & Y2). split; auto. eapply IK_TU2; eauto. eapply RmT_TU; eauto. destruct D; apply IU_refl; auto.
    - destruct Y as (Y1 & Y2). split; auto. eapply IK_TU2; eauto. eapply RmT_TU; eauto. destruct D; apply IU_refl; auto. }
  clear XA XB. rewrite H8 in X. destruct X as ((D1 & S2) & G).
  assert (s_gas s1 <= s_gas s2) as G2. { destruct S2 as (S2 & _). destruct S2. auto. }
  assert (st_ok s2) as O3. { destruct S2; auto. }
  assert (st_ok child) as O4. { destruct D1; auto. }
  assert (s_world s2 = s_world s1) as W2. { destruct S2 as (S2 & _). destruct S2. apply rest_world; auto. }
  assert (st_ok (set_world (s_world child) s2)) as O5. { destruct O3, O4. split; auto. }
  pose proof (h2_copy_var E BK _ _ _ _ (MEM_STACK + sp) MEM_STACK (inv_refl None _ O5) (inv_refl None _ O4)) as Y. unfold hb2 in Y.
  rewrite H9 in Y. destruct Y as ((Y1 & _) & (Y2 & _)). destruct Y1, Y2. subst s'. cbn [s_gas set_gas set_world] in *. lia.
Qed.
Print Assumptions C54_completed_calls_partial.

(** the call in [code_rcall] (const method of B that returns 5) in the state in which the instruction is executed *)
Definition rc_E := env0 code_rcall const_rcall code_ret5 [VNil; VUint 5] true.
Definition rc_s := ok_state ((start_setup rc_E aA None ;;; m <- prepare rc_E aA [109] false ;; begin 0) (engine_new aA 1 200000 false w0)).
Definition rc_s' := ok_state (remote_call rc_E 30 [([66], aB)] [66] [109] 0 rc_s).
Example C53_case : remote_call rc_E 30 [([66], aB)] [66] [109] 0 rc_s = Ok tt rc_s' /\
  visible bk0 rc_s MEM_STACK = None /\ visible bk0 rc_s' MEM_STACK = Some (VUint 5) /\ s_frames rc_s = [(0, 0)].
Proof. vm_compute. auto. Qed.
Example C54_case : backend_ok (e_backend rc_E) /\ 0 < e_fee_exec rc_E /\ mints_ok rc_s /\ st_ok rc_s /\
  s_limit rc_s < e_fee_exec rc_E * N.of_nat 30 /\ s_gas rc_s + 10000 < s_gas rc_s'.
Proof.
  split; [exact bk0_ok|]. split; [reflexivity|]. split; [constructor|]. split; [|split; vm_compute; reflexivity].
  split; [split|split].
  - intros a o. vm_compute. intros H. repeat (destruct H as [H|H]; [injection H as <- <-; vm_compute; auto|]). destruct H.
  - intros a k o. vm_compute. intros H. repeat (destruct H as [H|H]; [injection H as <- <- <-; vm_compute; auto|]). destruct H.
  - intros c a v H. vm_compute in H. discriminate.
  - intros c a k v H. vm_compute in H. discriminate.
Qed.
