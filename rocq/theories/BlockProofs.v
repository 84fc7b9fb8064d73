(** Proofs about blocks *)
Require Import List Arith NArith ZArith Bool Lia.
From Verif Require Import BytesLib OrdLib VarModel InstrModel EngineModel EngineSpec EngineProofs EngineUpper ExecModel ExecSpec ExecProofs
  StorModel StorSpec StorProofs TxModel TxSpec TxProofs BlockModel BlockSpec.
Import ListNotations.
Open Scope N_scope.

(** ** sums *)
Definition amt (a cur : addr) (i : txin) : N := if addr_eqb (ti_address i) a && addr_eqb (ti_currency i) cur then ti_amount i else 0.
Definition amto (a cur : addr) (o : txout) : N := if addr_eqb (to_address o) a && addr_eqb (to_currency o) cur then to_amount o else 0.
Lemma in_from_cons a cur i l : in_from a cur (i :: l) = amt a cur i + in_from a cur l.
Proof. reflexivity. Qed.
Lemma out_to_cons a cur o l : out_to a cur (o :: l) = amto a cur o + out_to a cur l.
Proof. reflexivity. Qed.
Lemma out_to_app' a cur l l' : out_to a cur (l ++ l') = out_to a cur l + out_to a cur l'.
Proof. induction l as [|o l IH]; [reflexivity|]. cbn [app]. rewrite !out_to_cons, IH. lia. Qed.
Lemma in_from_app' a cur l l' : in_from a cur (l ++ l') = in_from a cur l + in_from a cur l'.
Proof. induction l as [|o l IH]; [reflexivity|]. cbn [app]. rewrite !in_from_cons, IH. lia. Qed.

(** what a transaction takes on its own account, and what is drawn from contracts *)
Definition own_ins (t : tx) : list txin :=
  match t_sender t with Some a => [mk_txin a zero_addr (rs_fee (res t)) None false 0] | None => [] end
  ++ (if rs_fail (res t) then [] else t_inputs t).
Definition exec_ins (t : tx) : list txin := if rs_fail (res t) then [] else rs_inputs (res t).
Definition exec_outs (t : tx) : list txout := if rs_fail (res t) then [] else rs_outputs (res t).
Lemma ins_split a cur l : in_from a cur (ins_of l) = in_from a cur (flat_map own_ins l) + in_from a cur (flat_map exec_ins l).
Proof.
  unfold ins_of. induction l as [|t l IH]; [reflexivity|]. cbn [flat_map]. rewrite !in_from_app', IH.
  assert (in_from a cur (block_inputs t (res t)) = in_from a cur (own_ins t) + in_from a cur (exec_ins t)).
  { unfold block_inputs, own_ins, exec_ins. destruct (rs_fail (res t)); rewrite ?app_nil_r, ?in_from_app'; cbn [in_from fold_right]; lia. }
  lia.
Qed.
Lemma out_split a cur P b : out_to a cur (flat_map exec_outs (b_txs b)) <= out_to a cur (outs_of P b).
Proof.
  unfold outs_of. rewrite out_to_app'. enough (H : out_to a cur (flat_map exec_outs (b_txs b)) <=
    out_to a cur (flat_map (fun t => block_outputs t (res t)) (b_txs b))) by lia.
  induction (b_txs b) as [|t l IH]; cbn [flat_map]; [lia|]. rewrite !out_to_app'.
  assert (out_to a cur (exec_outs t) <= out_to a cur (block_outputs t (res t))).
  { unfold exec_outs, block_outputs. destruct (rs_fail (res t)); rewrite ?out_to_app'; lia. }
  lia.
Qed.

(** ** the check of funds *)
Lemma take_ok b a cur v b' : take b a cur v = Some b' -> forall a' cur',
  bal0 b' a' cur' + (if addr_eqb a a' && addr_eqb cur cur' then v else 0) = bal0 b a' cur'.
Proof.
  unfold take. destruct (b a cur) as [x|] eqn:B; [|discriminate]. destruct (N.ltb_spec x v) as [|L]; [discriminate|]. intros [= <-] a' cur'.
  unfold bal0, set_balance. destruct (addr_eqb_spec a' a) as [->|N1].
  - destruct (addr_eqb_spec cur' cur) as [->|N2]; rewrite ?addr_eqb_refl; cbn [andb].
    + rewrite B. lia.
    + destruct (addr_eqb_spec cur cur'); [congruence|]. cbn [andb]. lia.
  - destruct (addr_eqb_spec a a'); [congruence|]. cbn [andb]. lia.
Qed.
Lemma take_inputs_ok l : forall b b', take_inputs b l = Some b' -> forall a cur, bal0 b' a cur + in_from a cur l = bal0 b a cur.
Proof.
  induction l as [|i l IH]; cbn [take_inputs]; intros b b' H a cur.
  - injection H as <-. cbn. lia.
  - destruct (take b _ _ _) as [b1|] eqn:T; [|discriminate]. pose proof (take_ok _ _ _ _ _ T a cur) as H1. pose proof (IH _ _ H a cur).
    rewrite in_from_cons. unfold amt. lia.
Qed.
Lemma take_tx_ok b t b' : take_tx b t = Some b' -> forall a cur, bal0 b' a cur + in_from a cur (own_ins t) = bal0 b a cur.
Proof.
  unfold take_tx, own_ins. destruct (t_sender t) as [s|]; [|discriminate]. destruct (take b s zero_addr _) as [b1|] eqn:T; [|discriminate].
  intros H a cur. pose proof (take_ok _ _ _ _ _ T a cur) as H1. rewrite in_from_app', in_from_cons. unfold amt. cbn [ti_address ti_currency ti_amount].
  change (in_from a cur []) with 0.
  destruct (rs_fail (res t)).
  - injection H as <-. change (in_from a cur []) with 0. lia.
  - pose proof (take_inputs_ok _ _ _ H a cur). lia.
Qed.
Lemma check_txs_ok l : forall ids ratio b, check_txs ids ratio b l = true ->
  exists b', forall a cur, bal0 b' a cur + in_from a cur (flat_map own_ins l) = bal0 b a cur.
Proof.
  induction l as [|t l IH]; cbn [check_txs]; intros ids ratio b H.
  - exists b. intros. cbn. lia.
  - destruct (t_sender t); [|discriminate]. destruct (t_result t); [|discriminate]. destruct (existsb _ _); [discriminate|].
    destruct (match ratio with Some x => x <? t_ratio t | None => false end); [discriminate|].
    destruct (take_tx b t) as [b1|] eqn:T; [|discriminate]. destruct (IH _ _ _ H) as (b' & H1). exists b'. intros a0 cur.
    pose proof (take_tx_ok _ _ _ T a0 cur). specialize (H1 a0 cur). cbn [flat_map]. rewrite in_from_app'. lia.
Qed.
Lemma check_txs_res l : forall ids ratio b, check_txs ids ratio b l = true -> Forall (fun t => t_sender t <> None /\ t_result t <> None) l.
Proof.
  induction l as [|t l IH]; cbn [check_txs]; intros ids ratio b H; constructor.
  - destruct (t_sender t); [|discriminate]. destruct (t_result t); [|discriminate]. split; discriminate.
  - destruct (t_sender t); [|discriminate]. destruct (t_result t); [|discriminate]. destruct (existsb _ _); [discriminate|].
    destruct (match ratio with Some x => x <? t_ratio t | None => false end); [discriminate|].
    destruct (take_tx b t) as [b1|] eqn:T; [|discriminate]. eauto.
Qed.

(** ** the results in a block are those of the validation *)
Lemma settle_res t sender sf f io x r w r0 : t_result t = Some r0 -> settle_fee t sender sf f io x = VDone r w -> r = r0.
Proof.
  intros E. unfold settle_fee. destruct (cost_to_fee _ _); [|discriminate]. cbv zeta. destruct (x_bal x sender zero_addr); [|discriminate].
  destruct (_ <? _); [discriminate|]. rewrite E.
  destruct (negb _); [discriminate|]. destruct (negb _); [discriminate|]. destruct (negb _); [discriminate|].
  destruct (_ || _).
  - destruct (rs_inputs r0); [destruct (rs_outputs r0)|]; try discriminate. now intros [= <- _].
  - destruct (_ && _); [|discriminate]. now intros [= <- _].
Qed.
Lemma validate_res n bk t bal r w r0 : t_result t = Some r0 -> validate n bk t bal = VDone r w -> r = r0 /\ n_exists n (t_id t) = false.
Proof.
  intros E. unfold validate. destruct (negb _); [discriminate|]. destruct (n_max_cost n <? static_cost n t); [discriminate|].
  destruct (2 ^ 32 <=? t_max_fee t); [discriminate|]. destruct (n_exists n (t_id t)); [discriminate|].
  destruct (fee_to_cost _ _); [|discriminate]. destruct (cost_to_fee _ _); [|discriminate]. destruct (_ <? _); [discriminate|].
  destruct (t_sender t); [|discriminate]. destruct (_ =? 0); [discriminate|]. destruct (t_key t _ 0); try discriminate.
  destruct (bal _ _); [|discriminate]. destruct (_ <? _); [discriminate|]. cbv zeta.
  destruct (try_block _ _ _ _ _ _); try discriminate; intros V; (split; [eapply settle_res; eauto|auto]).
Qed.

(** ** the storage of a block *)
Lemma write_all_ram d l : forall r s, write_all l (SCache r (SDb d)) = Some s -> exists r', s = SCache r' (SDb d) /\ r_bal r' = r_bal r /\ r_ent r' = r_ent r /\
  (ram_ok r -> (forall k v, In (k, v) l -> hdr_ok (LMem (snd k)) (sv_val v)) -> ram_ok r').
Proof.
  induction l as [|((c, a), v) l IH]; cbn [write_all]; intros r s H.
  - injection H as <-. exists r. repeat split; auto; apply H.
  - unfold s_write in H. destruct (ram_write r c a v) as [r1|] eqn:W; [|discriminate].
    destruct (IH _ _ H) as (r' & E1 & E2 & E3 & E4). destruct (ram_write_other _ _ _ _ _ W) as (W1 & W2 & _).
    exists r'. split; auto. split; [congruence|]. split; [congruence|]. intros O K. apply E4; [|intros; apply K; right; auto].
    destruct O as (O1 & O2). split.
    + intros c' a' v'. rewrite (ram_write_read _ _ _ _ _ W). destruct (addr_eqb_spec c' c); cbn [andb]; eauto.
      destruct (N.eqb_spec a' a) as [->|]; eauto. intros [= <-]. apply (K (c, a) v). left. auto.
    + intros c' a' k' v'. unfold ram_read_entry. rewrite W1. apply O2.
Qed.
Lemma write_entries_ram d l : forall r, exists r', write_entries l (SCache r (SDb d)) = SCache r' (SDb d) /\ r_bal r' = r_bal r /\ r_mem r' = r_mem r /\
  (ram_ok r -> (forall k v, In (k, v) l -> hdr_ok (LEnt (fst (snd k)) (snd (snd k))) (sv_val v)) -> ram_ok r').
Proof.
  induction l as [|((c, (a, k)), v) l IH]; intros r.
  - exists r. cbn. split; auto.
  - unfold write_entries. cbn [fold_left fst snd s_write_entry]. destruct (IH (ram_write_entry r c a k v)) as (r' & E1 & E2 & E3 & E4).
    exists r'. split; [exact E1|]. split; [exact E2|]. split; [exact E3|]. intros O K. apply E4; [|intros; apply K; right; auto].
    destruct O as (O1 & O2). split; [exact O1|]. intros c' a' k' v'. unfold ram_read_entry, ram_write_entry. cbn [r_ent]. rewrite lfind_cons.
    destruct (ent_eqb_spec (c', (a', k')) (c, (a, k))) as [E|]; [|apply O2]. injection E as -> -> ->. intros [= <-].
    apply (K (c, (a, k)) v). left. auto.
Qed.
Lemma set_balances_ram d l : forall r, NoDup (map fst l) -> exists r', set_balances l (SCache r (SDb d)) = SCache r' (SDb d) /\ r_mem r' = r_mem r /\ r_ent r' = r_ent r /\
  forall c cur, ram_balance r' c cur = match lfind bal_eqb (c, cur) l with Some v => Some v | None => ram_balance r c cur end.
Proof.
  induction l as [|((c, cur), v) l IH]; intros r ND.
  - exists r. cbn. auto.
  - unfold set_balances. cbn [fold_left fst snd s_set_balance]. inversion ND as [|? ? NI ND']. subst.
    destruct (IH (ram_set_balance r c cur v) ND') as (r' & E1 & E2 & E3 & E4).
    exists r'. split; [exact E1|]. split; [exact E2|]. split; [exact E3|]. intros c' cur'. rewrite E4, lfind_cons.
    unfold ram_balance, ram_set_balance. cbn [r_bal]. rewrite lfind_cons.
    destruct (bal_eqb_spec (c', cur') (c, cur)) as [E|]; auto.
    injection E as -> ->. rewrite (lfind_out bal_eqb bal_eqb_spec) by exact NI. auto.
Qed.
Lemma commit_ram rw r d s : commit_into rw (SCache r (SDb d)) = Some s -> exists r', s = SCache r' (SDb d) /\
  (ram_ok rw -> ram_ok r -> ram_ok r') /\
  forall c cur, ram_balance r' c cur = match ram_balance rw c cur with Some v => Some v | None => ram_balance r c cur end.
Proof.
  unfold commit_into. destruct (write_all _ _) as [s1|] eqn:W; [|discriminate]. intros [= <-].
  destruct (write_all_ram _ _ _ _ W) as (r1 & -> & B1 & X1 & O1).
  destruct (write_entries_ram d (items ent_cmp (r_ent rw)) r1) as (r2 & -> & B2 & X2 & O2).
  destruct (set_balances_ram d (items bal_cmp (r_bal rw)) r2 (items_nodup bal_cmp bal_cmp_total _)) as (r3 & -> & M3 & X3 & H3).
  exists r3. split; auto. split.
  - intros [K1 K2] O. assert (O3 : ram_ok r2).
    { apply O2; [apply O1; auto|].
      - intros (c, a) v I. apply (K1 c a v). unfold ram_read. rewrite <- (items_find mem_cmp mem_cmp_total mem_eqb mem_eqb_spec).
        apply (lfind_nodup mem_eqb mem_eqb_spec); auto. apply (items_nodup mem_cmp mem_cmp_total).
      - intros (c, (a, k)) v I. apply (K2 c a k v). unfold ram_read_entry. rewrite <- (items_find ent_cmp ent_cmp_total ent_eqb ent_eqb_spec).
        apply (lfind_nodup ent_eqb ent_eqb_spec); auto. apply (items_nodup ent_cmp ent_cmp_total). }
    unfold ram_ok, ram_read, ram_read_entry in *. rewrite M3, X3. exact O3.
  - intros c cur. rewrite H3, (items_find bal_cmp bal_cmp_total bal_eqb bal_eqb_spec). unfold ram_balance. now rewrite B2, B1.
Qed.
Lemma backend_cache r d : ram_ok r -> backend_ok (backend_of (SDb d)) -> backend_ok (backend_of (SCache r (SDb d))).
Proof.
  intros (O1 & O2) (B1 & B2). split; cbn [backend_of bk_read bk_entry s_read s_entry].
  - intros c a v. destruct (ram_read r c a) eqn:E; [intros [= <-]; eauto|]. apply B1.
  - intros c a k v. destruct (ram_read_entry r c a k) eqn:E; [intros [= <-]; eauto|]. apply B2.
Qed.
(** the balance of a contract as the storage shows it *)
Definition shown (s : storage) (c cur : addr) : N := match fst (s_get_balance s c cur) with Some v => v | None => 0 end.
Lemma shown_cache r d c cur : shown (SCache r (SDb d)) c cur = match ram_balance r c cur with Some v => v | None => bal0 (d_bal d) c cur end.
Proof. unfold shown. cbn. destruct (ram_balance r c cur); auto. Qed.

Section BLOCK.
  Variable n : node.
  Variable d : sdb.
  Hypothesis db_ok : backend_ok (backend_of (SDb d)).
  Hypothesis fee_pos : 0 < n_fee_exec n.
  (** a transaction of the block was executed with its result on some storage of the block *)
  Definition executed (t : tx) : Prop := n_exists n (t_id t) = false /\ exists r w, ram_ok r /\ validate n (backend_of (SCache r (SDb d))) t (d_bal d) = VDone (res t) w.
  Lemma run_txs_ok l : forall r s, ram_ok r -> Forall (fun t => t_sender t <> None /\ t_result t <> None) l ->
    run_txs n (d_bal d) l (SCache r (SDb d)) = Some s ->
    exists r', s = SCache r' (SDb d) /\ ram_ok r' /\ Forall executed l /\
      forall c cur, shown s c cur + in_from c cur (flat_map exec_ins l) <= shown (SCache r (SDb d)) c cur + out_to c cur (flat_map exec_outs l).
  Proof.
    induction l as [|t l IH]; cbn [run_txs]; intros r s O R H.
    - injection H as <-. exists r. split; auto. split; auto. split; auto. intros. cbn [flat_map in_from out_to fold_right]. lia.
    - inversion R as [|? ? (R1 & R2) R3]; subst. destruct (validate n _ t (d_bal d)) as [| |r0 w| |] eqn:V; try discriminate.
      destruct (t_result t) as [r1|] eqn:TR; [|congruence]. destruct (validate_res _ _ _ _ _ _ _ TR V) as (-> & NE).
      assert (RES : res t = r1) by (unfold res; now rewrite TR).
      pose proof (validate_ok n _ (backend_cache r d O db_ok) fee_pos t (d_bal d) r1 w V) as X.
      destruct (commit_tx w (SCache r (SDb d))) as [s1|] eqn:C; [|discriminate].
      assert (EX : executed t) by (split; auto; rewrite RES; eauto).
      assert (ST : exists r1', s1 = SCache r1' (SDb d) /\ ram_ok r1' /\ forall c cur,
                   shown s1 c cur + in_from c cur (exec_ins t) <= shown (SCache r (SDb d)) c cur + out_to c cur (exec_outs t)).
      { unfold exec_ins, exec_outs. rewrite RES. destruct w as [w|]; cbn [commit_tx] in C.
        - destruct (commit_ram _ _ _ _ C) as (r' & -> & O1 & B1). exists r'. destruct (ex_world _ _ _ _ _ _ X w eq_refl) as (W1 & W2).
          split; auto. split; [auto|]. destruct (rs_fail r1) eqn:RF; [apply (ex_fail _ _ _ _ _ _ X) in RF; discriminate|].
          intros c cur. specialize (W2 c cur). rewrite !shown_cache, B1.
          unfold balance_of in W2. cbn [w_ram backend_of bk_balance s_get_balance] in W2.
          change (ram_balance ram_empty c cur) with (@None N) in W2. 
          destruct (ram_balance r c cur) eqn:RB; cbn [fst] in W2; unfold bal0 in *; destruct (ram_balance (w_ram w) c cur); lia.
        - injection C as <-. exists r. split; auto. split; auto. assert (RF : rs_fail r1 = true) by now apply (ex_fail _ _ _ _ _ _ X).
          rewrite RF. intros. cbn. lia. }
      destruct ST as (r1' & -> & O1 & B1). destruct (IH _ _ O1 R3 H) as (r' & E1 & E2 & E3 & E4). exists r'. split; auto. split; auto.
      split; [constructor; auto|]. intros c cur. specialize (B1 c cur). specialize (E4 c cur). cbn [flat_map].
      rewrite in_from_app', out_to_app'. lia.
  Qed.
  (** what is taken on its own account is never taken from a contract that acts in the block *)
  Lemma own_not_active txs t t' a : (forall b, n_contract n b <> None -> n_exists n b = true) ->
    (forall t t' a i, In t txs -> In t' txs -> t_key t a i = Accepted -> executable n t' a = false) ->
    In t txs -> In t' txs -> executed t -> executed t' -> executable n t' a = true -> forall cur, in_from a cur (own_ins t) = 0.
  Proof.
    intros NC KEY I1 I2 (_ & r & w & O & V) (NE & _) EX cur.
    pose proof (validate_ok n _ (backend_cache r d O db_ok) fee_pos t (d_bal d) _ _ V) as X.
    unfold own_ins. rewrite in_from_app'.
    assert (H1 : in_from a cur (match t_sender t with Some s => [mk_txin s zero_addr (rs_fee (res t)) None false 0] | None => [] end) = 0).
    { destruct (ex_fee _ _ _ _ _ _ X) as (s & f & E1 & _ & _ & _ & E2 & _). rewrite E1. rewrite in_from_cons. change (in_from a cur []) with 0.
      unfold amt. cbn [ti_address]. destruct (addr_eqb_spec s a) as [->|]; [|reflexivity]. rewrite (KEY t t' a 0) in EX by auto. discriminate. }
    rewrite H1. destruct (rs_fail (res t)) eqn:RF; [reflexivity|]. cbn [N.add].
    pose proof (ex_solved _ _ _ _ _ _ X RF) as S. revert S. generalize (t_inputs t). intros l S. induction S as [|i l S1 S2 IH]; [reflexivity|].
    rewrite in_from_cons, IH, N.add_0_r. unfold amt. destruct (addr_eqb_spec (ti_address i) a) as [E|]; [|reflexivity]. exfalso.
    destruct S1 as (_ & S1). destruct (ti_exec i).
    - destruct S1 as ((k & K1 & K2) & _). rewrite E in K1. assert (NX : n_exists n a = true) by (apply NC; congruence).
      unfold executable in EX. destruct (addr_eqb_spec a (t_id t')) as [->|]; [congruence|]. cbn [andb] in EX. rewrite K1, K2 in EX. discriminate.
    - rewrite E in S1. rewrite (KEY t t' a (ti_sol i)) in EX by auto. discriminate.
  Qed.
  Lemma exec_not_active t a : executed t -> active n t a = false -> forall cur, in_from a cur (exec_ins t) = 0.
  Proof.
    intros (_ & r & w & O & V) A cur. pose proof (validate_ok n _ (backend_cache r d O db_ok) fee_pos t (d_bal d) _ _ V) as X.
    unfold exec_ins. destruct (rs_fail (res t)); [reflexivity|]. now apply (ex_locked _ _ _ _ _ _ X).
  Qed.
  Lemma in_from_flat_0 (f : tx -> list txin) a cur l : (forall t, In t l -> in_from a cur (f t) = 0) -> in_from a cur (flat_map f l) = 0.
  Proof.
    induction l as [|t l IH]; intros H; [reflexivity|]. cbn [flat_map]. rewrite in_from_app', (H t) by (left; auto). rewrite IH; auto.
    intros. apply H. now right.
  Qed.
End BLOCK.

Lemma validate_block_parts n P d b s : validate_block n P d b = Some s ->
  size_of n (b_txs b) <= p_max_size P /\ cost_of (b_txs b) <= p_max_cost P /\ check_txs [] None (d_bal d) (b_txs b) = true /\
  bands_ok n P (b_txs b) = true /\ b_reward_amount b = match b_reward_addr b with Some _ => final_reward P (fees_of (b_txs b)) | None => 0 end /\
  run_txs n (d_bal d) (b_txs b) (block_storage d) = Some s.
Proof.
  unfold validate_block. destruct (N.leb_spec (size_of n (b_txs b)) (p_max_size P)); [|discriminate].
  destruct (N.leb_spec (cost_of (b_txs b)) (p_max_cost P)); [|discriminate]. cbn [negb].
  destruct (check_txs [] None (d_bal d) (b_txs b)); [|discriminate]. destruct (bands_ok n P (b_txs b)); [|discriminate]. cbn [negb].
  destruct (N.eqb_spec (b_reward_amount b) (match b_reward_addr b with Some _ => final_reward P (fees_of (b_txs b)) | None => 0 end)); [|discriminate].
  cbn [negb]. auto 10.
Qed.

Lemma ram_empty_ok' : ram_ok ram_empty.
Proof. split; intros; discriminate. Qed.
Theorem no_overdraft n P d b s : ledger_ok n d (b_txs b) -> validate_block n P d b = Some s -> forall a cur,
  in_from a cur (ins_of (b_txs b)) <= bal0 (d_bal d) a cur + out_to a cur (outs_of P b).
Proof.
  intros [L1 L2 L3 L4] V a cur. destruct (validate_block_parts _ _ _ _ _ V) as (_ & _ & C & _ & _ & R).
  destruct (check_txs_ok _ _ _ _ C) as (b' & T). specialize (T a cur). pose proof (check_txs_res _ _ _ _ C) as F.
  destruct (run_txs_ok n d L1 L2 _ _ _ ram_empty_ok' F R) as (r' & -> & O & EX & B). specialize (B a cur).
  rewrite shown_cache in B. rewrite ins_split. pose proof (out_split a cur P b). rewrite Forall_forall in EX.
  destruct (existsb (fun t => active n t a) (b_txs b)) eqn:A.
  - apply existsb_exists in A. destruct A as (t & I & A). apply andb_prop in A. destruct A as (_ & A).
    rewrite (in_from_flat_0 own_ins) by (intros t0 I0; exact (own_not_active n d L1 L2 (b_txs b) t0 t a L3 L4 I0 I (EX _ I0) (EX _ I) A cur)).
    rewrite shown_cache in B. change (ram_balance ram_empty a cur) with (@None N) in B. lia.
  - rewrite (in_from_flat_0 exec_ins); [lia|]. intros t I. eapply exec_not_active; eauto.
    destruct (active n t a) eqn:AT; auto. rewrite <- A. symmetry. apply existsb_exists. eauto.
Qed.

(** ** applying a block *)
Lemma give_ok l : forall b a cur, bal0 b a cur + out_to a cur l < 2 ^ 128 -> bal0 (fold_left give l b) a cur = bal0 b a cur + out_to a cur l.
Proof.
  induction l as [|o l IH]; intros b a cur B; [cbn; lia|]. cbn [fold_left]. rewrite out_to_cons in *.
  assert (E : bal0 (give b o) a cur = bal0 b a cur + amto a cur o).
  { unfold give, bal0 at 1, set_balance, amto. unfold amto in B.
    destruct (addr_eqb_spec a (to_address o)) as [->|N1].
    - destruct (addr_eqb_spec cur (to_currency o)) as [->|N2]; rewrite ?addr_eqb_refl in *; cbn [andb] in *.
      + change (match b (to_address o) (to_currency o) with Some v => v | None => 0 end) with (bal0 b (to_address o) (to_currency o)).
        apply N.mod_small. lia.
      + destruct (addr_eqb_spec (to_currency o) cur); [congruence|]. cbn [andb]. unfold bal0. lia.
    - destruct (addr_eqb_spec (to_address o) a); [congruence|]. cbn [andb]. unfold bal0. lia. }
  rewrite IH; rewrite E; lia.
Qed.
Lemma draw_ok l : forall b a cur, bal0 (fold_left draw l b) a cur = bal0 b a cur - in_from a cur l.
Proof.
  induction l as [|i l IH]; intros b a cur; [cbn [fold_left in_from fold_right]; lia|]. cbn [fold_left]. rewrite in_from_cons, IH.
  assert (E : bal0 (draw b i) a cur = bal0 b a cur - amt a cur i).
  { unfold draw, amt. destruct (b (ti_address i) (ti_currency i)) as [v|] eqn:B.
    - unfold bal0 at 1, set_balance. destruct (addr_eqb_spec a (ti_address i)) as [->|N1].
      + destruct (addr_eqb_spec cur (ti_currency i)) as [->|N2]; rewrite ?addr_eqb_refl; cbn [andb].
        * unfold bal0. rewrite B. lia.
        * destruct (addr_eqb_spec (ti_currency i) cur); [congruence|]. cbn [andb]. unfold bal0. lia.
      + destruct (addr_eqb_spec (ti_address i) a); [congruence|]. cbn [andb]. unfold bal0. lia.
    - destruct (addr_eqb_spec (ti_address i) a) as [<-|]; cbn [andb]; [|lia]. destruct (addr_eqb_spec (ti_currency i) cur) as [<-|]; [|lia].
      unfold bal0. rewrite B. lia. }
  rewrite E. lia.
Qed.
Lemma apply_ok b ins outs a cur : bal0 b a cur + out_to a cur outs < 2 ^ 128 ->
  bal0 (apply_balances b ins outs) a cur = bal0 b a cur + out_to a cur outs - in_from a cur ins.
Proof. intros H. unfold apply_balances. now rewrite draw_ok, give_ok. Qed.

Lemma in_sum_cons cur i l : in_sum cur (i :: l) = (if addr_eqb (ti_currency i) cur then ti_amount i else 0) + in_sum cur l.
Proof. reflexivity. Qed.
Lemma out_sum_cons cur o l : out_sum cur (o :: l) = (if addr_eqb (to_currency o) cur then to_amount o else 0) + out_sum cur l.
Proof. reflexivity. Qed.
Lemma supply_give l : forall (f : supply) cur, f cur + out_sum cur l < 2 ^ 128 ->
  fold_left (fun f o => put_supply f (to_currency o) ((f (to_currency o) + to_amount o) mod 2 ^ 128)) l f cur = f cur + out_sum cur l.
Proof.
  induction l as [|o l IH]; intros f cur B; [cbn; lia|]. cbn [fold_left]. rewrite out_sum_cons in *.
  assert (E : put_supply f (to_currency o) ((f (to_currency o) + to_amount o) mod 2 ^ 128) cur
              = f cur + (if addr_eqb (to_currency o) cur then to_amount o else 0)).
  { unfold put_supply. destruct (addr_eqb_spec cur (to_currency o)) as [->|NE]; rewrite ?addr_eqb_refl in *.
    - apply N.mod_small. lia.
    - destruct (addr_eqb_spec (to_currency o) cur); [congruence|]. lia. }
  rewrite IH; rewrite E; lia.
Qed.
Lemma supply_draw l : forall (f : supply) cur,
  fold_left (fun f i => put_supply f (ti_currency i) (f (ti_currency i) - N.min (f (ti_currency i)) (ti_amount i))) l f cur = f cur - in_sum cur l.
Proof.
  induction l as [|i l IH]; intros f cur; [cbn [fold_left in_sum fold_right]; lia|]. cbn [fold_left]. rewrite in_sum_cons, IH.
  assert (E : put_supply f (ti_currency i) (f (ti_currency i) - N.min (f (ti_currency i)) (ti_amount i)) cur
              = f cur - (if addr_eqb (ti_currency i) cur then ti_amount i else 0)).
  { unfold put_supply. destruct (addr_eqb_spec cur (ti_currency i)) as [->|NE]; rewrite ?addr_eqb_refl in *; [lia|].
    destruct (addr_eqb_spec (ti_currency i) cur); [congruence|]. lia. }
  rewrite E. lia.
Qed.
Lemma apply_supply_ok (f : supply) ins outs cur : f cur + out_sum cur outs < 2 ^ 128 ->
  apply_supply f ins outs cur = f cur + (out_sum cur outs - in_sum cur ins).
Proof.
  intros B. unfold apply_supply, supply_delta. cbv zeta. rewrite supply_draw, supply_give by lia.
  set (x := 0 + out_sum cur outs - in_sum cur ins). assert (x = out_sum cur outs - in_sum cur ins) as <- by (unfold x; lia).
  destruct (N.eqb_spec x 0) as [->|]; [lia|]. apply N.mod_small. unfold x. lia.
Qed.

(** ** sums over addresses *)
Definition lsum (f : addr -> N) (L : list addr) : N := fold_right (fun a s => f a + s) 0 L.
Lemma lsum_cons f a L : lsum f (a :: L) = f a + lsum f L. Proof. reflexivity. Qed.
Lemma lsum_app f L L' : lsum f (L ++ L') = lsum f L + lsum f L'.
Proof. induction L as [|a L IH]; [reflexivity|]. cbn [app]. rewrite !lsum_cons. lia. Qed.
Lemma lsum_add f g L : lsum (fun a => f a + g a) L = lsum f L + lsum g L.
Proof. induction L as [|a L IH]; [reflexivity|]. rewrite ?lsum_cons. lia. Qed.
Lemma lsum_ext f g L : (forall a, In a L -> f a = g a) -> lsum f L = lsum g L.
Proof. induction L as [|a L IH]; intros H; [reflexivity|]. rewrite ?lsum_cons. rewrite (H a) by (left; auto). f_equal. apply IH. intros. apply H. now right. Qed.
Lemma lsum_le f g L : (forall a, f a <= g a) -> lsum f L <= lsum g L.
Proof. intros H. induction L as [|a L IH]; [apply N.le_refl|]. rewrite ?lsum_cons. specialize (H a). lia. Qed.
Lemma lsum_0 L : lsum (fun _ => 0) L = 0.
Proof. induction L; auto. Qed.
Lemma lsum_one (b : addr) v L : NoDup L -> In b L -> lsum (fun a => if addr_eqb b a then v else 0) L = v.
Proof.
  induction 1 as [|a L NI ND IH]; intros I; [destruct I|]. rewrite ?lsum_cons. destruct I as [->|I].
  - rewrite addr_eqb_refl. rewrite (lsum_ext _ (fun _ => 0)); [rewrite lsum_0; lia|].
    intros x IX. destruct (addr_eqb_spec b x); congruence.
  - destruct (addr_eqb_spec b a) as [->|]; [contradiction|]. rewrite IH; auto.
Qed.
Lemma lsum_incl f L : forall L', NoDup L -> incl L L' -> lsum f L <= lsum f L'.
Proof.
  induction L as [|a L IH]; intros L' ND IN; [cbn; lia|]. inversion ND as [|? ? NI ND']; subst.
  assert (I : In a L') by (apply IN; left; auto). apply in_split in I. destruct I as (A & B & ->).
  assert (lsum f L <= lsum f (A ++ B)).
  { apply IH; auto. intros x IX. assert (In x (A ++ a :: B)) as H by (apply IN; right; auto). apply in_app_iff in H. apply in_app_iff.
    destruct H as [H|[->|H]]; auto. contradiction. }
  rewrite lsum_app in *. rewrite ?lsum_cons. lia.
Qed.
Lemma lsum_cover f L L' : NoDup L -> NoDup L' -> incl L L' -> (forall a, f a <> 0 -> In a L) -> lsum f L' = lsum f L.
Proof.
  intros ND ND' IN C. apply N.le_antisymm; [|now apply lsum_incl].
  assert (E : lsum f (filter (fun a => negb (f a =? 0)) L') = lsum f L').
  { clear. induction L' as [|a L IH]; [reflexivity|]. cbn [filter]. destruct (N.eqb_spec (f a) 0) as [E|]; cbn [negb]; rewrite ?lsum_cons; lia. }
  rewrite <- E. apply lsum_incl; [now apply NoDup_filter|]. intros x I. apply filter_In in I. destruct I as (_ & I). apply C.
  destruct (N.eqb_spec (f x) 0); [discriminate|auto].
Qed.
Lemma lsum_in cur L l : NoDup L -> (forall i, In i l -> In (ti_address i) L) -> lsum (fun a => in_from a cur l) L = in_sum cur l.
Proof.
  intros ND. induction l as [|i l IH]; intros H; [apply lsum_0|].
  rewrite (lsum_ext _ (fun a => amt a cur i + in_from a cur l)) by reflexivity. rewrite lsum_add, IH by (intros; apply H; now right).
  rewrite in_sum_cons. f_equal. unfold amt. destruct (addr_eqb (ti_currency i) cur).
  - rewrite (lsum_ext _ (fun a => if addr_eqb (ti_address i) a then ti_amount i else 0)).
    + apply lsum_one; auto. apply H. now left.
    + intros a _. now rewrite andb_true_r.
  - rewrite (lsum_ext _ (fun _ => 0)); [apply lsum_0|]. intros a _. now rewrite andb_false_r.
Qed.
Lemma lsum_out cur L l : NoDup L -> (forall i, In i l -> In (to_address i) L) -> lsum (fun a => out_to a cur l) L = out_sum cur l.
Proof.
  intros ND. induction l as [|i l IH]; intros H; [apply lsum_0|].
  rewrite (lsum_ext _ (fun a => amto a cur i + out_to a cur l)) by reflexivity. rewrite lsum_add, IH by (intros; apply H; now right).
  rewrite out_sum_cons. f_equal. unfold amto. destruct (addr_eqb (to_currency i) cur).
  - rewrite (lsum_ext _ (fun a => if addr_eqb (to_address i) a then to_amount i else 0)).
    + apply lsum_one; auto. apply H. now left.
    + intros a _. now rewrite andb_true_r.
  - rewrite (lsum_ext _ (fun _ => 0)); [apply lsum_0|]. intros a _. now rewrite andb_false_r.
Qed.
Definition addr_dec : forall a b : addr, {a = b} + {a <> b} := list_eq_dec N.eq_dec.
Definition joined (L : list addr) (ins : list txin) (outs : list txout) : list addr :=
  nodup addr_dec (L ++ map ti_address ins ++ map to_address outs).
Lemma joined_nodup L ins outs : NoDup (joined L ins outs). Proof. apply NoDup_nodup. Qed.
Lemma joined_l L ins outs : incl L (joined L ins outs).
Proof. intros x I. apply nodup_In, in_app_iff. auto. Qed.
Lemma joined_in L ins outs i : In i ins -> In (ti_address i) (joined L ins outs).
Proof. intros I. apply nodup_In, in_app_iff. right. apply in_app_iff. left. now apply in_map. Qed.
Lemma joined_out L ins outs i : In i outs -> In (to_address i) (joined L ins outs).
Proof. intros I. apply nodup_In, in_app_iff. right. apply in_app_iff. right. now apply in_map. Qed.
Lemma out_to_le a cur l : out_to a cur l <= out_sum cur l.
Proof.
  induction l as [|o l IH]; [cbn; lia|]. rewrite out_to_cons, out_sum_cons. unfold amto. destruct (addr_eqb (to_address o) a); cbn [andb]; lia.
Qed.
Lemma bal_le_sum L b cur a : NoDup L -> In a L -> bal0 b a cur <= sum_over L b cur.
Proof.
  intros ND I. change (sum_over L b cur) with (lsum (fun a => bal0 b a cur) L). apply in_split in I. destruct I as (A & B & ->).
  rewrite lsum_app. rewrite ?lsum_cons. lia.
Qed.
Lemma sum_over_lsum L b cur : sum_over L b cur = lsum (fun a => bal0 b a cur) L. Proof. reflexivity. Qed.

Lemma out_to_in a cur l : out_to a cur l <> 0 -> exists o, In o l /\ to_address o = a.
Proof.
  induction l as [|o l IH]; [intros H; exfalso; apply H; reflexivity|]. rewrite out_to_cons. unfold amto. destruct (addr_eqb_spec (to_address o) a) as [E|].
  - intros _. exists o. split; [now left|exact E].
  - cbn [andb]. intros H. destruct IH as (o' & I & E); [lia|]. exists o'. split; [now right|exact E].
Qed.
(** one block *)
Lemma block_sum L b cur ins outs f : holders L b cur -> sum_over L b cur <= f cur -> f cur + out_sum cur outs < 2 ^ 128 ->
  (forall a, in_from a cur ins <= bal0 b a cur + out_to a cur outs) ->
  let L' := joined L ins outs in let b' := apply_balances b ins outs in
  holders L' b' cur /\ sum_over L' b' cur + in_sum cur ins = sum_over L b cur + out_sum cur outs.
Proof.
  intros (ND & HO) SF FB OD. cbv zeta. set (L' := joined L ins outs). set (b' := apply_balances b ins outs).
  assert (SL : sum_over L b cur = sum_over L' b cur).
  { rewrite !sum_over_lsum. symmetry. apply lsum_cover; [exact ND|apply joined_nodup|apply joined_l|exact HO]. }
  assert (E : forall a, bal0 b' a cur + in_from a cur ins = bal0 b a cur + out_to a cur outs).
  { intros a. unfold b'. rewrite apply_ok; [specialize (OD a); lia|].
    assert (bal0 b a cur <= sum_over L b cur).
    { destruct (N.eq_dec (bal0 b a cur) 0) as [->|NZ]; [lia|]. apply bal_le_sum; auto. }
    pose proof (out_to_le a cur outs). lia. }
  split; [split|].
  - apply joined_nodup.
  - intros a NZ. specialize (E a). destruct (N.eq_dec (bal0 b a cur) 0) as [Z|NZ2].
    + assert (NO : out_to a cur outs <> 0) by lia. destruct (out_to_in a cur outs NO) as (o & I & <-). now apply joined_out.
    + apply joined_l. now apply HO.
  - rewrite SL, !sum_over_lsum. rewrite <- (lsum_in cur L' ins), <- (lsum_out cur L' outs), <- !lsum_add; try apply joined_nodup.
    + apply lsum_ext. intros a _. apply E.
    + intros i I. now apply joined_out.
    + intros i I. now apply joined_in.
Qed.

(** ** a block takes no more of a currency than it gives *)
Lemma in_sum_app' cur l l' : in_sum cur (l ++ l') = in_sum cur l + in_sum cur l'.
Proof. induction l as [|o l IH]; [reflexivity|]. cbn [app]. rewrite !in_sum_cons, IH. lia. Qed.
Lemma tx_sums n d txs cur : ledger_ok n d txs -> Forall (executed n d) txs -> (exists L, holders L (d_bal d) cur /\ sum_over L (d_bal d) cur < 2 ^ 128) ->
  in_sum cur (ins_of txs) <= (if addr_eqb zero_addr cur then fees_of txs else 0) + out_sum cur (flat_map (fun t => block_outputs t (res t)) txs).
Proof.
  intros [B F _ _] EX (L & (ND & HO) & LT). induction EX as [|t l EX _ IH]; [cbn; lia|].
  unfold ins_of, fees_of in *. cbn [flat_map map nsum fold_right]. fold (nsum (map (fun t => rs_fee (res t)) l)). rewrite in_sum_app', out_sum_app.
  destruct EX as (_ & r & w & O & V). pose proof (validate_ok n _ (backend_cache r d O B) F t (d_bal d) _ _ V) as X.
  assert (T : in_sum cur (block_inputs t (res t)) <= (if addr_eqb zero_addr cur then rs_fee (res t) else 0) + out_sum cur (block_outputs t (res t))).
  { unfold block_inputs, block_outputs. rewrite in_sum_app'.
    assert (E1 : in_sum cur (match t_sender t with Some a => [mk_txin a zero_addr (rs_fee (res t)) None false 0] | None => [] end) <=
                 (if addr_eqb zero_addr cur then rs_fee (res t) else 0)).
    { destruct (t_sender t); [rewrite in_sum_cons; cbn [ti_currency ti_amount]|]; change (in_sum cur []) with 0; lia. }
    destruct (rs_fail (res t)) eqn:RF; [change (in_sum cur []) with 0; change (out_sum cur []) with 0; lia|].
    pose proof (ex_ge _ _ _ _ _ _ X RF cur) as G. unfold all_inputs, all_outputs in G.
    enough (in_sum cur (t_inputs t) < 2 ^ 128) by (specialize (G H); lia).
    apply N.le_lt_trans with (2 := LT). set (L' := joined L (t_inputs t) []).
    assert (sum_over L (d_bal d) cur = sum_over L' (d_bal d) cur) as ->.
    { rewrite !sum_over_lsum. symmetry. apply lsum_cover; [exact ND|apply joined_nodup|apply joined_l|exact HO]. }
    rewrite <- (lsum_in cur L' (t_inputs t)); [|apply joined_nodup|intros i I; now apply joined_in].
    rewrite sum_over_lsum. apply lsum_le. intros a. pose proof (ex_bal _ _ _ _ _ _ X RF a cur) as EB. rewrite in_from_app' in EB. lia. }
  destruct (addr_eqb zero_addr cur); lia.
Qed.

Definition covers (Q : rules -> block -> Prop) (cur : addr) : Prop := cur = zero_addr -> forall P b, Q P b -> fees_paid_out P b.
Theorem history_sum Q b f : history Q b f -> forall cur, f cur < 2 ^ 128 /\
  exists L, holders L b cur /\ sum_over L b cur <= f cur /\ (covers Q cur -> sum_over L b cur = f cur).
Proof.
  induction 1 as [outs HB|n P d bl s f H IH LO V QB HB]; intros cur.
  - specialize (HB cur). rewrite apply_supply_ok by lia. change (in_sum cur []) with 0. split; [lia|].
    destruct (block_sum [] (fun _ _ => None) cur [] outs (fun _ => 0)) as (H1 & H2).
    { split; [constructor|]. intros a NZ. exfalso. apply NZ. reflexivity. }
    { cbn. lia. } { lia. } { intros a. cbn. lia. }
    change (in_sum cur []) with 0 in H2. change (sum_over [] (fun _ _ => None) cur) with 0 in H2.
    eexists. split; [exact H1|]. split; [lia|]. intros _. lia.
  - destruct (IH cur) as (FB & L & HL & SL & EQ). specialize (HB cur). rewrite apply_supply_ok by auto. split; [lia|].
    destruct (block_sum L (d_bal d) cur (ins_of (b_txs bl)) (outs_of P bl) f HL SL HB) as (H1 & H2).
    { intros a. eapply no_overdraft; eauto. }
    eexists. split; [exact H1|]. split; [lia|]. intros C. specialize (EQ C).
    destruct (validate_block_parts _ _ _ _ _ V) as (_ & _ & CH & _ & _ & R). pose proof LO as [L1 L2 _ _].
    destruct (run_txs_ok n d L1 L2 _ _ _ ram_empty_ok' (check_txs_res _ _ _ _ CH) R) as (_ & _ & _ & EX & _).
    pose proof (tx_sums n d (b_txs bl) cur LO EX) as T.
    assert (in_sum cur (ins_of (b_txs bl)) <= out_sum cur (outs_of P bl)); [|lia].
    unfold outs_of. rewrite out_sum_app. assert (T' := T (ex_intro _ L (conj HL (N.le_lt_trans _ _ _ SL FB)))). clear T.
    destruct (addr_eqb_spec zero_addr cur) as [<-|]; [|lia]. pose proof (C eq_refl P bl QB) as FP. unfold fees_paid_out in FP. lia.
Qed.
Lemma history_le Q b f : history Q b f -> forall cur L, NoDup L -> sum_over L b cur <= f cur.
Proof.
  intros H cur L ND. destruct (history_sum Q b f H cur) as (_ & L' & (ND' & HO) & S & _).
  apply N.le_trans with (2 := S). rewrite !sum_over_lsum.
  rewrite <- (lsum_cover _ L' (nodup addr_dec (L' ++ L))); auto using NoDup_nodup.
  - apply lsum_incl; auto. intros x I. apply nodup_In, in_app_iff. auto.
  - intros x I. apply nodup_In, in_app_iff. auto.
Qed.
Lemma holders_eq L L' b cur : holders L b cur -> holders L' b cur -> sum_over L b cur = sum_over L' b cur.
Proof.
  intros (N1 & H1) (N2 & H2). rewrite !sum_over_lsum.
  rewrite <- (lsum_cover _ L (nodup addr_dec (L ++ L'))), <- (lsum_cover _ L' (nodup addr_dec (L ++ L'))); auto using NoDup_nodup;
    intros x I; apply nodup_In, in_app_iff; auto.
Qed.
