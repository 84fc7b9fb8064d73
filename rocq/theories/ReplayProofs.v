(** Validating a transaction again with the result of its first validation *)
Require Import List Arith NArith ZArith Bool Lia.
From Verif Require Import BytesLib OrdLib VarModel InstrModel EngineModel EngineSpec EngineProofs EngineUpper ExecModel GasProofs StorModel StorProofs
  TxModel TxSpec TxProofs.
Import ListNotations.
Open Scope N_scope.

Lemma tx_env_update n bk t r : n_locked n (update r t) = n_locked n t -> tx_env n bk (update r t) = tx_env n bk t.
Proof. intros H. unfold tx_env. rewrite H. reflexivity. Qed.
Lemma exec_op_update n bk t r : n_locked n (update r t) = n_locked n t -> exec_op n bk (update r t) = exec_op n bk t.
Proof. intros H. unfold exec_op, exec_before, exec_rest. rewrite !(tx_env_update n bk t r H). reflexivity. Qed.
Lemma do_op_update n bk t r : n_locked n (update r t) = n_locked n t -> do_op n bk (update r t) = do_op n bk t.
Proof. intros H. unfold do_op. rewrite !(exec_op_update n bk t r H). reflexivity. Qed.
Lemma do_deploy_update n bk t r : n_locked n (update r t) = n_locked n t -> do_deploy n bk (update r t) = do_deploy n bk t.
Proof. intros H. unfold do_deploy. rewrite !(exec_op_update n bk t r H). reflexivity. Qed.
(** the try block without its last part *)
Definition try_front (n : node) (bk : backend) (t : tx) (avail limit : N) : TM unit :=
  if t_expires t <? n_height n then tfail
  else
    _ <== teach (do_input n t limit) (t_inputs t) ;;
    _ <== teach do_output (t_outputs t) ;;
    _ <== match t_deploy t with Some d => do_deploy n bk t avail d | None => tret tt end ;;
    teach (do_op n bk t avail limit) (t_ops t).
Definition try_back (n : node) (t : tx) (x : tst) : tres (list txin * list txout) :=
  match implicit_deposit t x with
  | None => TFail x
  | Some imp =>
    let ins := exec_inputs x in let outs := w_outs (x_world x) ++ deposit_outputs x ++ imp in
    let cost := x_cost x + match t_result t with Some _ => 0 | None => io_cost n ins outs end in
    if n_max_cost n <? cost then TStatic
    else if 2 ^ 32 <=? cost then TStatic
    else TOk (ins, outs) (set_cost cost x)
  end.
Lemma try_block_eq n bk t avail limit x : try_block n bk t avail limit x =
  match try_front n bk t avail limit x with TOk _ x => try_back n t x | TFail x => TFail x | TStatic => TStatic | TUndef => TUndef | TFuel => TFuel end.
Proof.
  unfold try_block, try_front. destruct (_ <? _); auto. unfold tbind.
  destruct (teach _ (t_inputs t) x) as [u x1|x1| | |]; auto.
  destruct (teach _ (t_outputs t) x1) as [u2 x2|x2| | |]; auto.
  match goal with |- match ?m with _ => _ end = _ => destruct m as [u3 x3|x3| | |]; auto end.
  destruct (teach _ (t_ops t) x3) as [u4 x4|x4| | |]; auto. unfold try_back. cbn [tget]. cbv zeta. destruct (implicit_deposit t x4); auto. cbn [tset].
  destruct (_ <? _); auto. destruct (_ <=? _); auto.
Qed.
Lemma try_front_update n bk t r avail limit : n_locked n (update r t) = n_locked n t -> try_front n bk (update r t) avail limit = try_front n bk t avail limit.
Proof. intros H. unfold try_front. rewrite (do_op_update n bk t r H), (do_deploy_update n bk t r H). reflexivity. Qed.
Lemma try_fail_update n bk t r avail limit x y : n_locked n (update r t) = n_locked n t -> try_block n bk t avail limit x = TFail y ->
  try_block n bk (update r t) avail limit x = TFail y.
Proof.
  intros H. rewrite !try_block_eq, try_front_update by auto. destruct (try_front n bk t avail limit x) as [u x1|x1| | |]; auto.
  unfold try_back. change (implicit_deposit (update r t) x1) with (implicit_deposit t x1). destruct (implicit_deposit t x1); auto. cbv zeta.
  destruct (_ <? _); [discriminate|]. destruct (_ <=? _); discriminate.
Qed.
Lemma settle_gas E l : forall s a s1, settle E l s = Ok a s1 -> s_gas s1 = s_gas s /\ s_limit s1 = s_limit s.
Proof.
  induction l as [|o l IH]; intros s a s1; cbn [settle]; [intros [= <- <-]; auto|]. unfold bind, get.
  destruct (cache_balance _ _ _ _) as ([b|], r'); [|discriminate]. destruct (_ <? _); [discriminate|]. cbn. intros H. apply IH in H. exact H.
Qed.
Lemma run_method_gas E remote dep m s a s1 : run_method E remote dep m s = Ok a s1 -> s_gas s1 <= s_limit s1.
Proof.
  unfold run_method, execute, bind. destruct (write _ _ _ s) as [? s2| | |]; try discriminate. destruct (write _ _ _ s2) as [? s3| | |]; try discriminate.
  unfold get at 1. destruct (begin _ s3) as [? s4| | |]; try discriminate. destruct (EngineModel.run _ _ _ _ _ s4) as [? s5| | |]; try discriminate.
  match goal with |- match match ?c with _ => _ end with _ => _ end = _ -> _ => destruct c as [? s6| | |]; try discriminate end.
  unfold check_gas. destruct (N.ltb_spec (s_limit s6) (s_gas s6)); try discriminate. unfold finish, bind, get, modify.
  destruct (settle E (s_outs s6) s6) as [? s7| | |] eqn:SE; try discriminate. apply settle_gas in SE. intros [= _ <-]. cbn. lia.
Qed.

Section REPLAY.
  Variable n : node.
  Variable bk : backend.
  Variable t : tx.
  Let E := tx_env n bk t.
  (** the second run starts with a higher cost and a lower balance of the sender *)
  Variable S : addr.
  Variables delta eps : N.
  Record shifted (x x' : tst) : Prop := mk_shifted {
    sh_cost : x_cost x' = x_cost x + delta;
    sh_amounts : x_amounts x' = x_amounts x; sh_dep : x_dep x' = x_dep x; sh_world : x_world x' = x_world x;
    sh_bal : forall a cur, x_bal x' a cur =
      if addr_eqb a S && addr_eqb cur zero_addr then option_map (fun v => v - eps) (x_bal x a cur) else x_bal x a cur }.
  Definition rich (x : tst) : Prop := exists v, x_bal x S zero_addr = Some v /\ eps <= v.
  Definition tsim {A} (limit : N) (m : TM A) : Prop := forall x a x1, m x = TOk a x1 ->
    x_cost x <= x_cost x1 /\ (rich x1 -> rich x) /\
    forall x', shifted x x' -> x_cost x1 + delta <= limit -> rich x1 -> (exists x1', m x' = TOk a x1' /\ shifted x1 x1') \/ m x' = TFuel.
  Lemma tsim_ret A limit (a : A) : tsim limit (tret a).
  Proof. intros x b x1 [= <- <-]. split; [lia|]. split; auto. intros x' H _ _. left. now exists x'. Qed.
  Lemma tsim_fail A limit : tsim limit (@tfail A).
  Proof. intros x b x1 [=]. Qed.
  Lemma tsim_no A limit (m : TM A) : (forall x a x1, m x <> TOk a x1) -> tsim limit m.
  Proof. intros H x b x1 H1. now apply H in H1. Qed.
  Lemma tsim_bind A B limit (m : TM A) (k : A -> TM B) : tsim limit m -> (forall a, tsim limit (k a)) -> tsim limit (tbind m k).
  Proof.
    intros H K x b x2. unfold tbind. destruct (m x) as [a x1| | | |] eqn:EM; try discriminate. intros E2.
    destruct (H x a x1 EM) as (C1 & R1 & H1). destruct (K a x1 b x2 E2) as (C2 & R2 & H2). split; [lia|]. split; [auto|].
    intros x' SH LE RI. destruct (H1 x' SH ltac:(lia) (R2 RI)) as [(x1' & -> & SH1)| ->]; auto.
  Qed.
  Lemma tsim_each A limit (f : A -> TM unit) l : (forall a, tsim limit (f a)) -> tsim limit (teach f l).
  Proof. intros H. induction l; cbn [teach]; [apply tsim_ret|]. apply tsim_bind; auto. Qed.
  Lemma tsim_check limit c : tsim limit (tcheck c).
  Proof. destruct c; [apply tsim_ret|apply tsim_no; discriminate|apply tsim_fail]. Qed.
  Lemma tsim_read_cost limit a : tsim limit (read_cost n limit a).
  Proof.
    intros x b x1. unfold read_cost, tbind, tget, tset. destruct (N.ltb_spec limit (x_cost x + n_read_cost n a)); [discriminate|]. intros [= <- <-].
    cbn [x_cost set_cost]. split; [lia|]. split; [intros (v & V & L); now exists v|].
    intros x' [C Q1 Q2 Q3 Q4] LE _. rewrite C. destruct (N.ltb_spec limit (x_cost x + delta + n_read_cost n a)); [lia|]. left. eexists. split; [reflexivity|].
    split; cbn; auto. lia.
  Qed.
  Lemma tsim_input limit i : tsim limit (do_input n t limit i).
  Proof.
    intros x u x1. unfold do_input. unfold tbind at 1. cbn [tget]. destruct (x_bal x (ti_address i) (ti_currency i)) as [b|] eqn:B; [|discriminate].
    destruct (N.ltb_spec b (ti_amount i)) as [|LB]; [discriminate|]. destruct (_ <=? _) eqn:NS; [discriminate|].
    set (mid := if ti_exec i then _ else _). assert (TM1 : tsim limit mid).
    { unfold mid. destruct (ti_exec i); [|apply tsim_check]. apply tsim_bind; [apply tsim_read_cost|]. intros _. destruct (n_contract n _); [apply tsim_check|apply tsim_fail]. }
    assert (SB : forall y a y1, mid y = TOk a y1 -> x_bal y1 = x_bal y).
    { unfold mid. intros y a y1. destruct (ti_exec i).
      - unfold tbind, read_cost, tget. unfold tbind. destruct (_ <? _); [discriminate|]. unfold tset. destruct (n_contract n _); [|discriminate].
        unfold tcheck. destruct (solution _ _ _ _); try discriminate. now intros [= _ <-].
      - unfold tcheck. destruct (t_key _ _ _); try discriminate. now intros [= _ <-]. }
    unfold tbind. destruct (mid x) as [a x2| | | |] eqn:MI; try discriminate. destruct (TM1 x a x2 MI) as (C1 & R1 & H1).
    cbn [tget]. unfold tset. intros [= <- <-]. cbn [x_cost]. split; [lia|].
    assert (RB : rich (mk_tst (x_cost x2) (set_balance (x_bal x2) (ti_address i) (ti_currency i) (b - ti_amount i))
                     ((ti_currency i, (mget addr_eqb (ti_currency i) (x_amounts x2) + ti_amount i) mod 2 ^ 128) :: x_amounts x2) (x_dep x2) (x_world x2)) ->
            rich x /\ rich x2 /\ (addr_eqb (ti_address i) S && addr_eqb (ti_currency i) zero_addr = true -> eps <= b - ti_amount i)).
    { intros (v & V & LE). cbn [x_bal] in V. unfold set_balance in V. unfold rich. rewrite (SB _ _ _ MI) in *.
      destruct (addr_eqb_spec S (ti_address i)) as [ES|ES], (addr_eqb_spec zero_addr (ti_currency i)) as [EZ|EZ]; cbn [andb] in V.
      - injection V as <-. rewrite <- ES, <- EZ in B. rewrite B. split; [exists b; split; auto; lia|]. split; [exists b; split; auto; lia|]. intros _. exact LE.
      - split; [eauto|]. split; [eauto|]. destruct (addr_eqb_spec (ti_currency i) zero_addr); [congruence|]. rewrite andb_false_r. discriminate.
      - split; [eauto|]. split; [eauto|]. destruct (addr_eqb_spec (ti_address i) S); [congruence|]. discriminate.
      - split; [eauto|]. split; [eauto|]. destruct (addr_eqb_spec (ti_address i) S); [congruence|]. discriminate. }
    split; [intros R; apply RB; exact R|]. intros x' SH LE RI. destruct (RB RI) as (RX & RX2 & EB).
    destruct (H1 x' SH LE RX2) as [(x2' & M2 & SH2)| M2].
    - left. rewrite (sh_bal _ _ SH). destruct (addr_eqb (ti_address i) S && addr_eqb (ti_currency i) zero_addr) eqn:IS.
      + specialize (EB eq_refl). rewrite B. cbn [option_map]. destruct (N.ltb_spec (b - eps) (ti_amount i)); [lia|]. rewrite M2. eexists. split; [reflexivity|].
        destruct SH2 as [Q0 Q1 Q2 Q3 Q4]. split; cbn [x_cost x_amounts x_dep x_world x_bal]; rewrite ?Q1; auto. intros a0 cur0. unfold set_balance. rewrite Q4.
        destruct (addr_eqb_spec a0 (ti_address i)) as [->|]; cbn [andb]; auto. destruct (addr_eqb_spec cur0 (ti_currency i)) as [->|]; cbn [andb]; auto.
        rewrite IS. cbn [option_map]. f_equal. lia.
      + rewrite B. destruct (N.ltb_spec b (ti_amount i)); [lia|]. rewrite M2. eexists. split; [reflexivity|].
        destruct SH2 as [Q0 Q1 Q2 Q3 Q4]. split; cbn [x_cost x_amounts x_dep x_world x_bal]; rewrite ?Q1; auto. intros a0 cur0. unfold set_balance. rewrite Q4.
        destruct (addr_eqb_spec a0 (ti_address i)) as [->|]; cbn [andb]; auto. destruct (addr_eqb_spec cur0 (ti_currency i)) as [->|]; cbn [andb]; auto.
        rewrite IS. reflexivity.
    - right. rewrite (sh_bal _ _ SH). destruct (addr_eqb (ti_address i) S && addr_eqb (ti_currency i) zero_addr) eqn:IS.
      + specialize (EB eq_refl). rewrite B. cbn [option_map]. destruct (N.ltb_spec (b - eps) (ti_amount i)); [lia|]. now rewrite M2.
      + rewrite B. destruct (N.ltb_spec b (ti_amount i)); [lia|]. now rewrite M2.
  Qed.
  Lemma tsim_output limit o : tsim limit (do_output o).
  Proof.
    intros x u x1. unfold do_output, tbind, tget, tset. cbv zeta. destruct (to_amount o =? 0) eqn:Z; [discriminate|].
    destruct (_ <? to_amount o) eqn:L; [discriminate|]. intros [= <- <-]. cbn [x_cost]. split; [lia|]. split; [intros (v & V & LE); now exists v|].
    intros x' [Q0 Q1 Q2 Q3 Q4] LE _. left. rewrite Q1, L. eexists. split; [reflexivity|]. split; auto.
  Qed.
  Variable avail : N.
  Let limit := N.min avail (n_max_cost n).
  Lemma tsim_exec_op k address c is_init : tsim limit (exec_op n bk t avail k address c is_init).
  Proof.
    unfold exec_op. destruct (k_exec k) as [ex|]; [|apply tsim_fail]. intros x u x1. unfold tbind at 1. cbn [tget]. cbv zeta.
    set (lim := N.min (avail - N.min (x_cost x) avail) (n_max_cost n)). set (s0 := engine_new address (t_version t) lim false (x_world x)).
    set (usr := fun s => match cl_user c with Some u0 => match charge_contract (tx_env n bk t) u0 s with Ok _ _ => tcheck (solution n t u0 (cl_sol c)) | _ => tfail end | None => tret tt end).
    fold (usr s0). unfold tbind. destruct (usr s0 x) as [a2 x2| | | |] eqn:US; try discriminate.
    assert (x2 = x) as ->.
    { unfold usr in US. destruct (cl_user c); [|now injection US]. destruct (charge_contract _ _ _); try discriminate. unfold tcheck in US. destruct (solution _ _ _ _); try discriminate. now injection US. }
    assert (SB : sim (exec_before n bk t address c) (exec_before n bk t address c)).
    { unfold exec_before. apply sim_bind; [apply sim_start_setup|]. intros _. apply sim_bind; [apply sim_add_deposit|]. intros _. destruct (n_hf2 n); [apply sim_ret|apply sim_op_setup]. }
    assert (SR : sim (exec_rest n bk t ex c is_init) (exec_rest n bk t ex c is_init)).
    { unfold exec_rest. apply sim_bind; [apply sim_prepare|]. intros m. apply sim_bind; [destruct (n_hf2 n); [apply sim_op_setup|apply sim_ret]|]. intros _.
      apply sim_run_method. intros. apply sim_remote_call. }
    destruct (exec_before n bk t address c s0) as [u1 s1| | |] eqn:EB; try discriminate.
    destruct (exec_rest n bk t ex c is_init s1) as [u2 s2| | |] eqn:ER; try discriminate. unfold tset. intros [= <- <-].
    cbn [x_cost set_world' set_cost]. split; [lia|]. split; [intros (v & V & LE); now exists v|].
    destruct (SB _ _ _ EB) as (G1 & L1 & H1). destruct (SR _ _ _ ER) as (G2 & L2 & H2).
    assert (GL : s_gas s2 <= lim).
    { assert (K : s_gas s2 <= s_limit s2).
      { unfold exec_rest, bind in ER. destruct (prepare _ _ _ _ s1) as [m s3| | |]; try discriminate.
        match type of ER with match ?c with _ => _ end = _ => destruct c as [? s4| | |]; try discriminate end. now apply run_method_gas in ER. }
      rewrite L2, L1 in K. exact K. }
    intros x' [Q0 Q1 Q2 Q3 Q4] LE RI. cbn [tget]. cbv zeta. rewrite Q0, Q3.
    set (lim' := N.min (avail - N.min (x_cost x + delta) avail) (n_max_cost n)).
    assert (GL' : s_gas s2 <= lim') by (unfold lim', limit in *; lia).
    change (engine_new address (t_version t) lim' false (x_world x)) with (set_limit lim' s0).
    fold (usr (set_limit lim' s0)).
    assert (US' : usr (set_limit lim' s0) x' = TOk a2 x').
    { unfold usr in US |- *. destruct (cl_user c) as [u0|] eqn:CU; [|injection US as <-; reflexivity].
      destruct (charge_contract (tx_env n bk t) u0 s0) as [u3 s3| | |] eqn:CC; try discriminate.
      assert (G3 : s_gas s3 <= s_gas s1).
      { unfold exec_before, start_setup, bind in EB. rewrite CU in EB. rewrite CC in EB.
        destruct (write _ _ _ s3) as [? s4| | |] eqn:W1; try discriminate. destruct (write _ _ _ s4) as [? s5| | |] eqn:W2; try discriminate.
        destruct (write _ _ _ s5) as [? s6| | |] eqn:W3; try discriminate. destruct (add_deposit _ _ s6) as [? s7| | |] eqn:W4; try discriminate.
        apply sim_write in W1, W2, W3. apply sim_add_deposit in W4.
        assert (K : sim (if n_hf2 n then ret tt else op_setup (tx_env n bk t) (cl_deposit c) (cl_args c)) (if n_hf2 n then ret tt else op_setup (tx_env n bk t) (cl_deposit c) (cl_args c))).
        { destruct (n_hf2 n); [apply sim_ret|apply sim_op_setup]. }
        apply K in EB. lia. }
      destruct (sim_charge_contract _ _ _ _ _ CC) as (_ & _ & H3). assert (s_gas s3 <= lim') as G3' by lia.
      assert (CC' : charge_contract (tx_env n bk t) u0 (set_limit lim' s0) = Ok u3 (set_limit lim' s3)).
      { destruct (H3 lim' G3') as [K|K]; auto. exfalso. unfold charge_contract, bind, get, add_gas, modify in K. destruct (_ <? _); discriminate. }
      rewrite CC'. unfold tcheck in US |- *. destruct (solution _ _ _ _); try discriminate. injection US as <-. reflexivity. }
    rewrite US'.
    destruct (H1 lim' ltac:(lia)) as [-> | ->]; auto. destruct (H2 lim' GL') as [-> | ->]; auto.
    left. eexists. split; [reflexivity|]. change (s_gas (set_limit lim' s2)) with (s_gas s2). rewrite !N.min_l by lia.
    split; cbn [x_cost x_amounts x_dep x_world x_bal set_world' set_cost]; auto. lia.
  Qed.
  Lemma tsim_deploy d : tsim limit (do_deploy n bk t avail d).
  Proof.
    unfold do_deploy. destruct (negb _); [apply tsim_fail|]. destruct (k_exec _); [|apply tsim_ret]. destruct (forallb _ _); [apply tsim_exec_op|apply tsim_fail].
  Qed.
  Lemma tsim_op o : tsim limit (do_op n bk t avail limit o).
  Proof.
    unfold do_op. destruct (negb _); [apply tsim_fail|]. cbv zeta. apply tsim_bind.
    { destruct (addr_eqb _ (t_id t)); [apply tsim_ret|]. apply tsim_bind; [apply tsim_read_cost|intros; apply tsim_ret]. }
    intros [k|]; [|apply tsim_fail]. apply tsim_bind; [|intros _; destruct (op_call o); [apply tsim_exec_op|apply tsim_ret]].
    destruct (op_call o) as [c|]; [|apply tsim_ret]. destruct (cl_deposit c) as [(cur, v)|]; [|apply tsim_ret].
    intros x u x1. unfold tbind, tget, tset. destruct (_ <? v) eqn:L; [discriminate|]. intros [= <- <-]. cbn [x_cost]. split; [lia|].
    split; [intros (w & V & LE); now exists w|]. intros x' [Q0 Q1 Q2 Q3 Q4] LE _. left. rewrite Q1, L, Q2. eexists. split; [reflexivity|].
    split; cbn; auto.
  Qed.
  Lemma tsim_front : tsim limit (try_front n bk t avail limit).
  Proof.
    unfold try_front. destruct (_ <? _); [apply tsim_fail|]. apply tsim_bind; [apply tsim_each, tsim_input|]. intros _.
    apply tsim_bind; [apply tsim_each, tsim_output|]. intros _. apply tsim_bind; [destruct (t_deploy t); [apply tsim_deploy|apply tsim_ret]|]. intros _.
    apply tsim_each, tsim_op.
  Qed.
End REPLAY.

Lemma addr_refl a : addr_eqb a a = true.
Proof. destruct (addr_eqb_spec a a); congruence. Qed.
Lemma list_eqb_refl {A} (eqb : A -> A -> bool) : (forall a, eqb a a = true) -> forall l, list_eqb eqb l l = true.
Proof. intros H. induction l; cbn; auto. now rewrite H, IHl. Qed.
Lemma txin_eqb_refl i : txin_eqb i i = true.
Proof. unfold txin_eqb. rewrite !addr_refl, N.eqb_refl, Bool.eqb_reflx. destruct (ti_memo i); [rewrite addr_refl|]; reflexivity. Qed.
Lemma txout_eqb_refl o : txout_eqb o o = true.
Proof. unfold txout_eqb. rewrite !addr_refl, N.eqb_refl. destruct (to_memo o); [rewrite addr_refl|]; reflexivity. Qed.

Theorem revalidates n bk t r bal w : backend_ok bk -> 0 < n_fee_exec n -> n_locked n (update r t) = n_locked n t ->
  t_result t = None -> validate n bk t bal = VDone r w -> rs_cost r * t_ratio t <= t_max_fee t * 1024 ->
  validate n bk (update r t) bal = VDone r w.
Proof.
  intros BK FE LO NR V CO. pose proof (validate_ends n bk BK FE (update r t) bal) as ENDS.
  revert V. unfold validate in ENDS |- *.
  change (t_valid (update r t)) with (t_valid t) in *. change (t_ratio (update r t)) with (t_ratio t) in *. change (t_max_fee (update r t)) with (t_max_fee t) in *.
  change (t_id (update r t)) with (t_id t) in *. change (t_sender (update r t)) with (t_sender t) in *. change (t_nsol (update r t)) with (t_nsol t) in *.
  change (t_key (update r t)) with (t_key t) in *.
  assert (SC : static_cost n (update r t) = static_cost n t + io_cost n (rs_inputs r) (rs_outputs r)).
  { unfold static_cost. rewrite NR. cbn [t_base t_result update]. lia. }
  destruct (negb _) eqn:VA; [discriminate|]. destruct (N.ltb_spec (n_max_cost n) (static_cost n t)) as [|L1]; [discriminate|].
  destruct (2 ^ 32 <=? t_max_fee t) eqn:L2; [discriminate|]. destruct (n_exists n (t_id t)) eqn:EX; [discriminate|].
  destruct (fee_to_cost (t_max_fee t) (t_ratio t)) as [avail|] eqn:FC; [|discriminate].
  assert (R1 : 1024 <= t_ratio t).
  { apply negb_false_iff, andb_prop in VA. destruct VA as (_ & VA). now apply N.leb_le in VA. }
  assert (AV : avail = t_max_fee t * 1024 / t_ratio t).
  { unfold fee_to_cost in FC. cbv zeta in FC. destruct (2 ^ 64 <=? t_max_fee t * 1024 / t_ratio t); [discriminate|]. injection FC as <-. reflexivity. }
  assert (CA : rs_cost r <= avail). { rewrite AV. apply N.div_le_lower_bound; lia. }
  assert (TF : rs_cost r * t_ratio t / 1024 <= t_max_fee t). { apply N.div_le_upper_bound; [discriminate|]. lia. }
  destruct (cost_to_fee (static_cost n t) (t_ratio t)) as [sf|] eqn:SF; [|discriminate].
  destruct (N.ltb_spec (t_max_fee t) sf) as [|L3]; [discriminate|]. destruct (t_sender t) as [S|] eqn:SE; [|discriminate].
  destruct (t_nsol t =? 0) eqn:NS; [discriminate|]. destruct (t_key t S 0) eqn:KE; try discriminate.
  destruct (bal S zero_addr) as [b|] eqn:BA; [|discriminate]. destruct (N.ltb_spec b sf) as [|L4]; [discriminate|]. cbv zeta in *.
  set (limit := N.min avail (n_max_cost n)) in *.
  set (x := mk_tst (static_cost n t) (set_balance bal S zero_addr (b - sf)) [] [] (mk_world ram_empty [] [])).
  destruct (try_block n bk t avail limit x) as [io x1|x1| | |] eqn:TB; try discriminate.
  - (* the execution went through *)
    unfold settle_fee at 1. rewrite NR. cbn [orb]. destruct (cost_to_fee (x_cost x1) (t_ratio t)) as [tot|] eqn:TO; [|discriminate]. cbv zeta.
    destruct (x_bal x1 S zero_addr) as [b1|] eqn:B1; [|discriminate]. destruct (N.ltb_spec b1 (N.min tot (t_max_fee t) - sf)) as [|L5]; [discriminate|].
    intros V. assert (RC : rs_cost r = x_cost x1) by (injection V as <- _; reflexivity).
    assert (TOT : tot = rs_cost r * t_ratio t / 1024).
    { unfold cost_to_fee in TO. cbv zeta in TO. destruct (2 ^ 64 <=? x_cost x1 * t_ratio t / 1024); [discriminate|]. rewrite RC. injection TO as <-. reflexivity. }
    destruct (N.ltb_spec (t_max_fee t) tot) as [|L6]; [lia|]. rewrite N.min_l in * by lia. cbv iota in V.
    rewrite try_block_eq in TB. destruct (try_front n bk t avail limit x) as [u x2| | | |] eqn:TFR; try discriminate.
    unfold try_back in TB. rewrite NR in TB. destruct (implicit_deposit t x2) as [imp|] eqn:IM; [|discriminate]. cbv zeta in TB.
    set (ins := exec_inputs x2) in *. set (outs := w_outs (x_world x2) ++ deposit_outputs x2 ++ imp) in *. set (cost := x_cost x2 + io_cost n ins outs) in *.
    destruct (N.ltb_spec (n_max_cost n) cost) as [|L7]; [discriminate|]. destruct (2 ^ 32 <=? cost) eqn:L8; [discriminate|].
    injection TB as <- <-. cbn [x_cost set_cost x_bal fst snd x_world] in *.
    set (rr := mk_result false cost tot ins outs) in *. assert (r = rr /\ w = Some (x_world x2)) as (-> & ->) by (injection V as <- <-; auto).
    cbn [rs_inputs rs_outputs rr] in SC. fold (io_cost n ins outs) in SC. set (delta := io_cost n ins outs) in *. rewrite SC in *.
    assert (CX : static_cost n t <= x_cost x2).
    { destruct (tsim_front n bk t S 0 0 avail x u x2 TFR) as (K & _). exact K. }
    destruct (N.ltb_spec (n_max_cost n) (static_cost n t + delta)) as [|_]; [unfold cost in L7; lia|].
    assert (SF2 : exists sf2, cost_to_fee (static_cost n t + delta) (t_ratio t) = Some sf2 /\ sf <= sf2 /\ sf2 <= tot).
    { unfold cost_to_fee in TO, SF |- *. cbv zeta in *. destruct (N.leb_spec (2 ^ 64) (cost * t_ratio t / 1024)) as [|T1]; [discriminate|].
      destruct (N.leb_spec (2 ^ 64) (static_cost n t * t_ratio t / 1024)) as [|T2]; [discriminate|]. injection SF as <-.
      assert (D1 : (static_cost n t + delta) * t_ratio t / 1024 <= cost * t_ratio t / 1024).
      { apply N.div_le_mono; [discriminate|]. apply N.mul_le_mono_r. unfold cost. lia. }
      assert (D2 : static_cost n t * t_ratio t / 1024 <= (static_cost n t + delta) * t_ratio t / 1024).
      { apply N.div_le_mono; [discriminate|]. apply N.mul_le_mono_r. lia. }
      destruct (N.leb_spec (2 ^ 64) ((static_cost n t + delta) * t_ratio t / 1024)) as [T3|]; [exfalso; clear - T1 D1 T3; eapply N.lt_irrefl, N.le_lt_trans; [exact T3|]; eapply N.le_lt_trans; eassumption|].
      eexists. split; [reflexivity|]. split; [exact D2|]. rewrite TOT. exact D1. }
    destruct SF2 as (sf2 & SF2 & S1 & S2). rewrite SF2 in *. destruct (N.ltb_spec (t_max_fee t) sf2) as [|_]; [lia|].
    set (eps := sf2 - sf) in *.
    assert (RI : rich S eps x2). { exists b1. split; auto. unfold eps. lia. }
    destruct (tsim_front n bk t S delta eps avail x u x2 TFR) as (_ & RX & H).
    assert (RX0 : eps <= b - sf).
    { destruct (RX RI) as (v & V1 & V2). cbn [x_bal x] in V1. unfold set_balance in V1. rewrite !addr_refl in V1. cbn [andb] in V1. injection V1 as <-. exact V2. }
    destruct (N.ltb_spec b sf2) as [|_]; [unfold eps in *; lia|].
    set (x' := mk_tst (static_cost n t + delta) (set_balance bal S zero_addr (b - sf2)) [] [] (mk_world ram_empty [] [])) in *.
    assert (SH : shifted S delta eps x x').
    { split; auto. intros a cur. cbn [x_bal x x']. unfold set_balance.
      destruct (addr_eqb a S && addr_eqb cur zero_addr); auto. cbn [option_map]. f_equal. unfold eps. lia. }
    rewrite try_block_eq, (try_front_update n bk t rr avail limit LO) in ENDS |- *.
    assert (LI : x_cost x2 + delta <= N.min avail (n_max_cost n)).
    { cbn [rs_cost rr] in CA. unfold cost in *. lia. }
    destruct (H x' SH LI RI) as [(x2' & T2 & SH2)|T2]; [|change (N.min avail (n_max_cost n)) with limit in T2; rewrite T2 in ENDS; now exfalso].
    change (N.min avail (n_max_cost n)) with limit in T2. rewrite T2. destruct SH2 as [Q0 Q1 Q2 Q3 Q4].
    unfold try_back. change (t_result (update rr t)) with (Some rr). cbv iota.
    assert (IM' : implicit_deposit (update rr t) x2' = Some imp). { rewrite <- IM. unfold implicit_deposit. rewrite Q1. reflexivity. }
    rewrite IM'. cbv zeta. rewrite N.add_0_r, Q0. fold cost.
    destruct (N.ltb_spec (n_max_cost n) cost) as [|_]; [lia|]. rewrite L8. unfold settle_fee. cbn [x_cost set_cost x_bal x_world fst snd].
    change (t_ratio (update rr t)) with (t_ratio t). change (t_max_fee (update rr t)) with (t_max_fee t). change (t_result (update rr t)) with (Some rr).
    rewrite TO. cbv zeta. rewrite Q4, !addr_refl. cbn [andb]. rewrite B1. cbn [option_map]. rewrite N.min_l by lia.
    destruct (N.ltb_spec (b1 - eps) (tot - sf2)) as [|_]; [unfold eps in *; lia|]. destruct (N.ltb_spec (t_max_fee t) tot) as [|_]; [lia|].
    cbn [orb rs_fail rs_cost rs_fee rs_inputs rs_outputs rr Bool.eqb negb]. rewrite !N.eqb_refl. cbn [negb].
    assert (EI : exec_inputs x2' = ins) by (unfold exec_inputs; rewrite Q2, Q3; reflexivity).
    assert (EO : deposit_outputs x2' = deposit_outputs x2) by (unfold deposit_outputs; rewrite Q2, Q3; reflexivity).
    rewrite EI, EO, Q3. fold outs. rewrite (list_eqb_refl _ txin_eqb_refl), (list_eqb_refl _ txout_eqb_refl). reflexivity.
  - (* the execution failed *)
    unfold settle_fee at 1. rewrite NR. cbn [orb]. destruct (cost_to_fee (x_cost x1) (t_ratio t)) as [tot|] eqn:TO; [|discriminate]. cbv zeta.
    destruct (x_bal x1 S zero_addr) as [b1|] eqn:B1; [|discriminate]. destruct (N.ltb_spec b1 (N.min tot (t_max_fee t) - sf)) as [|L5]; [discriminate|].
    intros V. set (rr := mk_result true (x_cost x1) (N.min tot (t_max_fee t)) [] []) in *. assert (r = rr /\ w = None) as (-> & ->) by (injection V as <- <-; auto).
    cbn [rs_inputs rs_outputs rr] in SC. change (io_cost n [] []) with 0 in SC. rewrite N.add_0_r in SC. rewrite SC in *.
    destruct (N.ltb_spec (n_max_cost n) (static_cost n t)) as [|_]; [lia|]. rewrite SF. destruct (N.ltb_spec (t_max_fee t) sf) as [|_]; [lia|].
    destruct (N.ltb_spec b sf) as [|_]; [lia|]. fold x. rewrite (try_fail_update n bk t rr avail limit x x1 LO TB).
    unfold settle_fee. change (t_ratio (update rr t)) with (t_ratio t). change (t_max_fee (update rr t)) with (t_max_fee t). change (t_result (update rr t)) with (Some rr).
    rewrite TO. cbv zeta. rewrite B1. destruct (N.ltb_spec b1 (N.min tot (t_max_fee t) - sf)) as [|_]; [lia|].
    cbn [orb rs_fail rs_cost rs_fee rs_inputs rs_outputs rr Bool.eqb negb]. rewrite !N.eqb_refl. reflexivity.
Qed.

From Verif Require Import BlockModel BlockProofs BandProofs.
(** what was locked does not depend on the result: src/Node_validate.cpp:76-105 *)
Definition locks_ok (n : node) : Prop := forall t r, n_locked n (update r t) = n_locked n (reset_tx t).
Definition covered (t : tx) : Prop := rs_cost (res t) * t_ratio t <= t_max_fee t * 1024.
Lemma executed_runs n d bal : backend_ok (backend_of (SDb d)) -> 0 < n_fee_exec n -> locks_ok n ->
  forall l l' r, ram_ok r -> sub l' (execute_txs n bal l (SCache r (SDb d))) -> NoDup (map t_id (execute_txs n bal l (SCache r (SDb d)))) ->
  (forall t, In t (execute_txs n bal l (SCache r (SDb d))) -> rs_fail (res t) = false -> In t l') -> Forall covered l' ->
  exists s, run_txs n bal l' (SCache r (SDb d)) = Some s.
Proof.
  intros B F LO. induction l as [|t l IH]; intros l' r O SU ND KEEP CO; cbn [execute_txs] in *.
  - inversion SU; subst. cbn. eauto.
  - destruct (validate _ _ _ _) as [| |r0 w| |] eqn:V; try (eapply IH; eauto; fail).
    pose proof (validate_ok n _ (backend_cache r d O B) F _ _ _ _ V) as X.
    destruct (commit_tx w (SCache r (SDb d))) as [s1|] eqn:C; [|eapply IH; eauto].
    assert (ST : exists r1, s1 = SCache r1 (SDb d) /\ ram_ok r1).
    { destruct w as [w|]; cbn [commit_tx] in C.
      - destruct (commit_ram _ _ _ _ C) as (r1 & -> & O1 & _). exists r1. split; auto. apply O1; auto. now destruct (ex_world _ _ _ _ _ _ X w eq_refl).
      - injection C as <-. eauto. }
    destruct ST as (r1 & -> & O1). cbn [map] in ND. inversion ND as [|? ? NI ND']; subst.
    assert (NIT : ~ In (update r0 t) (execute_txs n bal l (SCache r1 (SDb d)))). { intros I. apply NI. apply (in_map t_id) in I. exact I. }
    inversion SU as [|? ? ? SU'|? l2 ? SU']; subst.
    + (* left out: it failed *)
      destruct (rs_fail r0) eqn:RF.
      * assert (w = None) as -> by (now apply (ex_fail _ _ _ _ _ _ X)). cbn [commit_tx] in C. injection C as <-.
        apply IH; auto. intros t' I. apply KEEP. now right.
      * exfalso. apply NIT. eapply sub_in; [exact SU'|]. apply KEEP; [now left|exact RF].
    + inversion CO as [|? ? C1 C2]; subst. cbn [run_txs].
      assert (V2 : validate n (backend_of (SCache r (SDb d))) (update r0 t) bal = VDone r0 w).
      { change (update r0 t) with (update r0 (reset_tx t)). apply revalidates; auto; [apply backend_cache; auto|exact (LO (reset_tx t) r0)]. }
      rewrite V2, C. apply IH; auto. intros t' I RF. destruct (KEEP t' (or_intror I) RF) as [<-|]; [contradiction|auto].
Qed.
