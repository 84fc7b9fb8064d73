(** C53, C54: what a remote call that returns leaves in the engine of the caller *)
Require Import List Arith NArith ZArith Bool Lia.
From Verif Require Import BytesLib OrdLib VarModel InstrModel EngineModel EngineSpec ExecModel ExecSpec EngineProofs EngineUpper EngineVis ExecProofs VmSafeProofs.
Import ListNotations.
Open Scope N_scope.

Section WRITE.
  Variable bk : backend.
  Lemma assign_flat a v s u s' : flat v = true -> assign_loc bk (LMem a) v s = Ok u s' -> visible bk s' a = Some v.
  Proof.
    intros F. unfold assign_loc. intros H. apply bind_ok in H as (s1 & s2 & E1 & H). injection E1 as <- <-.
    apply bind_ok in H as (u1 & s3 & _ & H). apply bind_ok in H as (u2 & s4 & _ & H). apply bind_ok in H as (u3 & s5 & _ & H).
    apply bind_ok in H as (u4 & s6 & E & H).
    assert (s6 = s') as <-. { destruct v; try discriminate; apply ok_inj in H as (_ & H); auto. }
    destruct (match cell s (LMem a) with Some o => (o_rc o, o_fl o) | None => (0, no_fl) end) as (rc & fl) eqn:X.
    apply put_new_ok in E as ->. rewrite visible_put, N.eqb_refl. cbn [o_fl o_val]. destruct fl; auto.
  Qed.
  Lemma type_simple v w : is_simple v = true -> is_simple w = true -> type_of v = type_of w -> v = w.
  Proof. destruct v, w; simpl; intros; try discriminate; auto. Qed.
  Lemma write_flat a v s u s' : flat v = true -> write bk a (STmp v) s = Ok u s' -> visible bk s' a = Some v.
  Proof.
    intros F. unfold write. intros H. apply bind_ok in H as (u1 & s1 & E1 & H). apply check_init_ok in E1 as ->.
    apply bind_ok in H as (u2 & s2 & E2 & H). clear E2. unfold write_gen in H. cbn [load ref_loc] in H.
    apply bind_ok in H as (src & s3 & E3 & H). unfold ret in E3. injection E3 as <- <-. cbn [o_fl o_val f_deleted no_fl] in H.
    apply bind_ok in H as (s3 & s4 & E4 & H). injection E4 as <- <-.
    destruct (cell s2 (LMem a)) as [o|] eqn:C; [|destruct v; try discriminate F; eapply assign_flat; eauto].
    destruct (f_const (o_fl o)); [discriminate|].
    set (o1 := if f_deleted (o_fl o) then _ else o) in H.
    assert (f_deleted (o_fl o1) = false) as D1. { unfold o1. destruct (f_deleted (o_fl o)) eqn:D; auto. }
    apply bind_ok in H as (u3 & s3 & E3 & H). apply put_ok in E3 as ->.
    assert (Hk : o_val o1 = v -> visible bk (put_cell (LMem a) o1 s2) a = Some v).
    { intros <-. rewrite visible_put, N.eqb_refl, D1. auto. }
    assert (Hn : visible bk (put_cell (LMem a) (with_val v (with_fl (set_dirty true) o1)) (put_cell (LMem a) o1 s2)) a = Some v).
    { rewrite visible_put, N.eqb_refl. destruct o1 as [? ? []]; cbn in *. rewrite D1. auto. }
    assert (Hs : forall w, o_val o1 = w -> is_simple v && is_simple w = true ->
      (if type_of v =? type_of w then ret tt else put (LMem a) (with_val v (with_fl (set_dirty true) o1))) (put_cell (LMem a) o1 s2) = Ok u s' ->
      visible bk s' a = Some v).
    { intros w W S2 Ht. apply andb_prop in S2 as (S1 & S2). destruct (N.eqb_spec (type_of v) (type_of w)) as [T|T].
      - apply ok_inj in Ht as (_ & <-). apply Hk. rewrite W. symmetry. apply type_simple; auto.
      - apply put_ok in Ht as ->. auto. }
    destruct v as [| | | |n| | | |]; try discriminate F;
      destruct (o_val o1) as [| | | |m| | | |] eqn:V1; cbn [is_simple andb] in H; try (eapply assign_flat; eauto; fail);
      try (eapply Hs; [reflexivity|reflexivity|exact H]).
    destruct (N.eqb_spec n m) as [->|NE].
    - apply ok_inj in H as (_ & <-). auto.
    - apply put_ok in H as ->. auto.
  Qed.
End WRITE.

Section CALL.
  Variable E : env.
  Notation bk := (e_backend E).
  Lemma bind2_ok A B (m : MM A) (k : A -> MM B) p b d s : bind2 m k p = Ok2 b d s ->
    exists a d1 s1, m p = Ok2 a d1 s1 /\ k a (d1, s1) = Ok2 b d s.
  Proof. unfold bind2. destruct (m p); try discriminate. eauto 6. Qed.
  Lemma dst_ok A (m : M A) d s a d' s' : on_dst m (d, s) = Ok2 a d' s' -> m d = Ok a d' /\ s' = s.
  Proof. unfold on_dst. destruct (m d); try discriminate. intros H. injection H as <- <- <-. auto. Qed.
  Lemma src_ok A (m : M A) d s a d' s' : on_src m (d, s) = Ok2 a d' s' -> m s = Ok a s' /\ d' = d.
  Proof. unfold on_src. destruct (m s); try discriminate. intros H. injection H as <- <- <-. auto. Qed.
  Lemma check_gas_ok s u s' : check_gas s = Ok u s' -> s' = s /\ s_gas s <= s_limit s.
  Proof. unfold check_gas. destruct (N.ltb_spec (s_limit s) (s_gas s)); [discriminate|]. intros H1. apply ok_inj in H1 as (_ & <-). auto. Qed.
  (** a flat value found in the source arrives in the destination *)
  Lemma copy_var_flat d s a b u d' s' v : b < MEM_STATIC -> flat v = true -> visible bk s b = Some v ->
    copy_var E a b (d, s) = Ok2 u d' s' -> visible bk d' a = Some v.
  Proof.
    intros L F V H. unfold copy_var in H. apply bind2_ok in H as (o & d1 & s1 & H1 & H). apply src_ok in H1 as (H1 & ->).
    apply read_vis in H1; auto. destruct H1 as (_ & H1). rewrite V in H1. destruct o as [o|]; [|discriminate]. injection H1 as H1.
    cbn [option_map] in H. unfold MAX_COPY_RECURSION in H.
    match type of H with vcopy _ ?n _ _ _ = _ => remember n as k end.
    destruct k as [|k]; [discriminate Heqk|]. cbn [vcopy] in H. cbv zeta in H.
    apply bind2_ok in H as (u1 & d2 & s2 & H2 & H). apply dst_ok in H as (H & _). apply check_gas_ok in H as (-> & _).
    rewrite <- H1 in H2.
    assert (X : on_dst (write bk a (STmp v)) (d, s1) = Ok2 u1 d2 s2). { destruct v; auto; discriminate. }
    apply dst_ok in X as (X & _). eapply write_flat; eauto.
  Qed.
  Lemma fetch_frames a s c s' : fetch E a s = Ok c s' -> s_frames s' = s_frames s.
  Proof.
    unfold fetch. intros H. apply bind_ok in H as (s1 & s2 & E1 & H). injection E1 as <- <-.
    destruct (_ && _). { apply ok_inj in H as (_ & <-). auto. }
    destruct (existsb _ _). { apply ok_inj in H as (_ & <-). auto. }
    apply bind_ok in H as (u & s2 & E2 & H).
    assert (s_frames s2 = s_frames s) as <-.
    { unfold charge_contract in E2. apply bind_ok in E2 as (u1 & s3 & E3 & E2). injection E3 as <- <-.
      destruct (_ <? _); [discriminate|]. unfold add_gas, modify in E2. apply ok_inj in E2 as (_ & <-). auto. }
    destruct (e_contract E a).
    - apply bind_ok in H as (u1 & s3 & E3 & H). unfold modify in E3. apply ok_inj in E3 as (_ & <-). apply ok_inj in H as (_ & <-). auto.
    - apply ok_inj in H as (_ & <-). auto.
  Qed.
  (** the parts of a remote call that returns *)
  Lemma remote_parts n dep name method nargs s s' : remote_call E (S n) dep name method nargs s = Ok tt s' ->
    exists address c ex ip sp fs s1 child s2 s3 child2,
      lfind addr_eqb name dep = Some address /\ k_exec c = Some ex /\ s_frames s = (ip, sp) :: fs /\ s_frames s1 = s_frames s /\
      fetch E address s = Ok (Some c) (set_gas (s_gas s1 - e_fee_exec E) s1) /\ e_fee_exec E <= s_gas s1 /\ s_gas s1 <= s_limit s1 /\
      call_child E (run_method E (remote_call E n)) (fst ex) (snd ex) method
        (call_setup E nargs (MEM_STACK + sp) (s_contract s1) address)
        (engine_new address (e_version E) (s_limit s1 - s_gas s1) false (s_world s1), s1) = Ok2 tt child s2 /\
      copy_var E (MEM_STACK + sp) MEM_STACK (set_world (s_world child) s2, child) = Ok2 tt s3 child2 /\
      s' = set_gas (s_gas s3 + s_gas child2) s3 /\ s_gas s' <= s_limit s'.
  Proof.
    cbn [remote_call]. intros H. apply bind_ok in H as (address & t1 & E1 & H).
    unfold opt in E1. destruct (lfind addr_eqb name dep) as [ad|]; [|discriminate]. apply ok_inj in E1 as (<- & <-).
    apply bind_ok in H as (c & t2 & E2 & H). pose proof (fetch_frames _ _ _ _ E2) as FR.
    apply bind_ok in H as (c' & t3 & E3 & H). destruct c as [c|]; [|discriminate]. apply ok_inj in E3 as (<- & <-).
    apply bind_ok in H as (ex & t4 & E4 & H). destruct (k_exec c) as [ex'|] eqn:KX; [|discriminate]. apply ok_inj in E4 as (<- & <-).
    apply bind_ok in H as (u1 & t5 & E5 & H). unfold add_gas, modify in E5. apply ok_inj in E5 as (_ & <-).
    apply bind_ok in H as (u2 & t6 & E6 & H). apply check_gas_ok in E6 as (-> & G6).
    apply bind_ok in H as (f & t7 & E7 & H). unfold get_frame in E7. apply bind_ok in E7 as (t8 & t9 & E8 & E7). injection E8 as <- <-.
    set (s1 := set_gas (s_gas t2 + e_fee_exec E) t2) in *.
    assert (FR1 : s_frames s1 = s_frames s). { rewrite <- FR. reflexivity. }
    destruct (s_frames s1) as [|f0 fs] eqn:EF; [discriminate|]. apply ok_inj in E7 as (<- & <-). destruct f0 as (ip, sp).
    cbv zeta in H. cbn [snd] in H. rewrite (N.min_l _ _ G6) in H.
    match type of H with match ?X with _ => _ end = _ => destruct X as [u d1 s2|d1 s2|d1 s2|] eqn:EC; try discriminate end.
    match type of H with match ?X with _ => _ end = _ => destruct X as [u3 s3 d2|d3 s3|d3 s3|] eqn:EV; try discriminate end.
    destruct u, u3. apply bind_ok in H as (u4 & s4 & E9 & H). unfold add_gas, modify in E9. apply ok_inj in E9 as (_ & <-).
    apply check_gas_ok in H as (-> & G7).
    exists ad, c, ex', ip, sp, fs, s1, d1, s2, s3, d2. rewrite <- FR1, EF. repeat (split; auto).
    - replace (set_gas (s_gas s1 - e_fee_exec E) s1) with t2; auto. unfold s1. cbn [s_gas set_gas].
      rewrite N.add_sub. destruct t2; reflexivity.
    - unfold s1. cbn [s_gas set_gas]. lia.
  Qed.

  Lemma settle_cells outs : forall s u s', settle E outs s = Ok u s' -> s_mem s' = s_mem s.
  Proof.
    induction outs as [|o outs IH]; intros s u s' H; cbn [settle] in H; [apply ok_inj in H as (_ & <-); auto|].
    apply bind_ok in H as (s1 & s2 & E1 & H). injection E1 as <- <-.
    destruct (cache_balance bk (s_ram s) (s_contract s) (to_currency o)) as [[b|] r].
    - apply bind_ok in H as (u1 & s3 & E1 & H). destruct (_ <? _); [discriminate|]. unfold modify in E1. apply ok_inj in E1 as (_ & <-).
      apply IH in H. auto.
    - apply bind_ok in H as (u1 & s3 & E1 & H). discriminate.
  Qed.
  Lemma finish_cells s u s' : finish E s = Ok u s' -> s_mem s' = s_mem s.
  Proof.
    unfold finish. intros H. apply bind_ok in H as (s1 & s2 & E1 & H). injection E1 as <- <-.
    apply bind_ok in H as (u1 & s3 & E1 & H). apply settle_cells in E1. unfold modify in H. apply ok_inj in H as (_ & <-). auto.
  Qed.
  (** what [call_child] runs, and that nothing is changed after the end of a const method *)
  Lemma call_child_parts rc bin deps name setup d s d' s' : call_child E (run_method E rc) bin deps name setup (d, s) = Ok2 tt d' s' ->
    exists b m c0 c1 c2, e_binary E bin = Some b /\ lfind addr_eqb name (b_methods b) = Some m /\ m_public m = true /\
      begin (m_entry m) c0 = Ok tt c1 /\
      run bk (e_ext E) (rc deps) (read_contract E) (fuel_of (s_limit c0)) c1 = Ok tt c2 /\ s_frames c2 = [] /\
      (m_const m = true -> forall a, a < MEM_STATIC -> visible bk d' a = visible bk c2 a).
  Proof.
    unfold call_child. intros H. apply bind2_ok in H as (u1 & d1 & s1 & _ & H).
    apply bind2_ok in H as (m & d2 & s2 & H2 & H). apply dst_ok in H2 as (H2 & _).
    apply bind2_ok in H as (u3 & d3 & s3 & _ & H). apply dst_ok in H as (H & _).
    unfold prepare in H2. apply bind_ok in H2 as (t1 & t2 & _ & H2). apply bind_ok in H2 as (t3 & t4 & _ & H2).
    apply bind_ok in H2 as (t5 & t6 & _ & H2). apply bind_ok in H2 as (b & t7 & Hb & H2). apply bind_ok in H2 as (m' & t8 & Hm & H2).
    apply bind_ok in H2 as (u4 & t9 & Hp & H2). apply bind_ok in H2 as (u5 & t10 & _ & H2). apply ok_inj in H2 as (-> & _).
    unfold run_method in H. apply bind_ok in H as (u6 & t11 & _ & H). apply bind_ok in H as (u7 & t12 & _ & H).
    apply bind_ok in H as (t13 & t14 & H13 & H). unfold get in H13. injection H13 as <- <-.
    apply bind_ok in H as (u8 & t15 & HX & H). unfold execute in HX. apply bind_ok in HX as (u9 & c1 & HB & HX).
    apply bind_ok in HX as (u10 & c2 & HR & HX). apply bind_ok in HX as (u11 & t16 & HC & HX). apply check_gas_ok in HX as (-> & _).
    destruct u9, u10.
    exists b, m, t12, c1, c2. split; [destruct (e_binary E bin); [|discriminate]; apply ok_inj in Hb as (<- & _); auto|].
    split. { destruct (lfind addr_eqb name (b_methods b)); [|discriminate]. apply ok_inj in Hm as (<- & _); auto. }
    split. { destruct (m_public m); [auto|discriminate]. }
    split; auto. split; auto. split.
    - revert HR. generalize (fuel_of (s_limit t12)). intros n. revert c1 HB. intros c1 _. revert c1. induction n as [|n IH]; intros c1 HR; cbn [run] in HR.
      + apply bind_ok in HR as (x1 & x2 & E1 & HR). injection E1 as <- <-. destruct (s_frames c1) eqn:F; [|discriminate].
        apply ok_inj in HR as (_ & <-). auto.
      + apply bind_ok in HR as (x1 & x2 & E1 & HR). injection E1 as <- <-. destruct (s_frames c1) eqn:F.
        * apply ok_inj in HR as (_ & <-). auto.
        * apply bind_ok in HR as (x3 & x4 & _ & HR). eauto.
    - intros MC. rewrite MC in HC. apply ok_inj in HC as (_ & <-). apply finish_cells in H. intros a La. unfold visible, cell.
      rewrite H. destruct (N.leb_spec MEM_STATIC a); [lia|]. reflexivity.
  Qed.
End CALL.
