(** C28 in a block, C29, C30, C31, C42: blocks of transactions *)
Require Import List Arith NArith ZArith Bool Lia Sorted.
From Verif Require Import BytesLib OrdLib VarModel InstrModel EngineModel EngineSpec EngineProofs EngineUpper ExecModel ExecSpec ExecProofs ExecCases
  StorModel StorSpec StorProofs TxModel TxSpec TxProofs TxProps BlockModel BlockSpec BlockProofs BandProofs ReplayProofs.
Import ListNotations.
Open Scope N_scope.

(** ** A ledger and blocks on top of it that are used below *)
Definition outs0 : list txout := [mk_txout aS zero_addr 1000000 None; mk_txout aO cur0 160 None; mk_txout aA cur0 45 None].
Definition balances1 : balances := apply_balances (fun _ _ => None) [] outs0.
Definition db1 : sdb := mk_sdb [] [] [] balances1.
Definition node1 (max : N) : node :=
  let n := node0 code_all max in
  mk_node max (n_in_cost n) (n_out_cost n) (fun a => addr_eqb a aA || addr_eqb a aB) (n_ext n) (n_contract n) (n_binary n) (n_read_cost n) (n_fee_exec n)
    (n_hf2 n) (n_network n) (n_height n) (n_locked n).
(** a transaction with the given id: 50 of the other owner's, 40 to B, 10 to contract A, which sends 30 to B *)
Definition txn (id ratio max_fee : N) (r : option result) : tx :=
  let t := tx0 max_fee 10 r in
  mk_tx true (repeat id 32) 1 100 ratio max_fee (t_sender t) (t_inputs t) (t_outputs t) None (t_ops t) 50000 2 (t_key t) (t_sol t) r.
Definition rules1 (size : N) (bands : list N) (reward : N) : rules := mk_rules size 1000000 bands 5 0 0 1 reward.
Definition result1 := mk_result false 85191 170382 [mk_txin aA cur0 20 None false 65535] [mk_txout aB cur0 30 None].
Definition result2 := mk_result true 59141 118282 [] [].
(** the first one succeeds, the second has no fee for a call of the contract *)
Definition block1 (reward : option addr) (amount : N) : block :=
  mk_block [txn 21 2048 500000 (Some result1); txn 22 2048 120000 (Some result2)] None reward amount aO.
Lemma db1_ok : backend_ok (backend_of (SDb db1)).
Proof. split; intros; discriminate. Qed.
Lemma ledger1 reward amount : ledger_ok (node1 90000) db1 (b_txs (block1 reward amount)).
Proof.
  constructor; [exact db1_ok|reflexivity| |].
  - intros a H. unfold node1 in *. cbn [n_contract node0 e_contract env0 n_exists] in *. destruct (addr_eqb a aA); auto. destruct (addr_eqb a aB); auto.
  - intros t t' a i IN IN' K. assert (KE : t_key t a i = t_key (tx0 0 0 None) a i) by (destruct IN as [<-|[<-|[]]]; reflexivity).
    rewrite KE in K. cbn [tx0 t_key] in K.
    assert (A : a = aS \/ a = aO).
    { destruct (addr_eqb_spec a aS); auto. destruct (addr_eqb_spec a aO); auto. discriminate. }
    destruct IN' as [<-|[<-|[]]], A as [-> | ->]; vm_compute; reflexivity.
Qed.
Example block1_valid : exists s, validate_block (node1 90000) (rules1 200000 [] 0) db1 (block1 None 0) = Some s.
Proof. eexists. vm_compute. reflexivity. Qed.

(** ** C28 in a block: contract storage after the block is what it is without the failed transaction. *)
Theorem C28_block_without_the_failed : forall n bal d t l1 l2 r s,
  backend_ok (backend_of (SDb d)) -> 0 < n_fee_exec n -> Forall (fun t => t_sender t <> None /\ t_result t <> None) l1 ->
  t_result t = Some r -> rs_fail r = true ->
  run_txs n bal (l1 ++ t :: l2) (block_storage d) = Some s -> run_txs n bal (l1 ++ l2) (block_storage d) = Some s.
Proof.
  intros n bal d t l1 l2 r s B F FA TR RF. unfold block_storage. generalize ram_empty ram_empty_ok'. revert FA.
  induction l1 as [|t1 l1 IH]; intros FA r0 O; cbn [app run_txs].
  - destruct (validate n _ t bal) as [| |r1 w| |] eqn:V; try discriminate.
    destruct (validate_res _ _ _ _ _ _ _ TR V) as (-> & _). pose proof (validate_ok n _ (backend_cache r0 d O B) F _ _ _ _ V) as X.
    apply (ex_fail _ _ _ _ _ _ X) in RF. subst w. auto.
  - inversion FA as [|? ? F1 F2]; subst. destruct (validate n _ t1 bal) as [| |r1 w| |] eqn:V; try discriminate.
    pose proof (validate_ok n _ (backend_cache r0 d O B) F _ _ _ _ V) as X.
    destruct (commit_tx w _) as [s1|] eqn:C; [|discriminate]. destruct w as [w|]; cbn [commit_tx] in C.
    + destruct (commit_ram _ _ _ _ C) as (r2 & -> & O1 & _). apply IH; auto. apply O1; auto. now destruct (ex_world _ _ _ _ _ _ X w eq_refl).
    + injection C as <-. apply IH; auto.
Qed.
Print Assumptions C28_block_without_the_failed.
Example C28_block_case : exists s, run_txs (node1 90000) balances1 (b_txs (block1 None 0)) (block_storage db1) = Some s /\
  run_txs (node1 90000) balances1 [txn 21 2048 500000 (Some result1)] (block_storage db1) = Some s.
Proof. eexists. split; vm_compute; reflexivity. Qed.

(** ** C29.  A valid block takes no more from any address and currency than is there or given in the block, so that balances after the block are exact:
    [clamped_sub_assign] never clamps. *)
Theorem C29_no_overdraft : forall n P d b s, ledger_ok n d (b_txs b) -> validate_block n P d b = Some s ->
  forall a cur, in_from a cur (ins_of (b_txs b)) <= bal0 (d_bal d) a cur + out_to a cur (outs_of P b).
Proof. exact no_overdraft. Qed.
Print Assumptions C29_no_overdraft.
Theorem C29_balances_are_exact : forall n P d b s, ledger_ok n d (b_txs b) -> validate_block n P d b = Some s ->
  forall a cur, bal0 (d_bal d) a cur + out_to a cur (outs_of P b) < 2 ^ 128 ->
  bal0 (apply_balances (d_bal d) (ins_of (b_txs b)) (outs_of P b)) a cur + in_from a cur (ins_of (b_txs b)) = bal0 (d_bal d) a cur + out_to a cur (outs_of P b).
Proof.
  intros n P d b s L V a cur B. rewrite apply_ok by auto. pose proof (no_overdraft _ _ _ _ _ L V a cur). lia.
Qed.
Print Assumptions C29_balances_are_exact.
(** the failed transaction costs its fee only; contract A has 45 + 10 - 30 = 25 left *)
Example C29_case : let b := block1 (Some aO) 9 in let P := rules1 200000 [] 9 in
  ledger_ok (node1 90000) db1 (b_txs b) /\
  let b' := apply_balances (d_bal db1) (ins_of (b_txs b)) (outs_of P b) in
  map (fun e => bal0 b' (fst e) (snd e)) [(aS, zero_addr); (aO, zero_addr); (aO, cur0); (aA, cur0); (aB, cur0)] = [1000000 - 170382 - 118282 - 7; 7 + 9; 110; 25; 70].
Proof. split; [apply ledger1|]. vm_compute. reflexivity. Qed.

(** ** C30.  The supply that the node reports is not less than the sum of the balances of any addresses, and of every currency but the native one it is
    the sum of all balances. *)
Theorem C30_supply_covers_balances_partial : forall b f, history any_block b f -> forall cur L, NoDup L -> sum_over L b cur <= f cur.
Proof. intros b f H cur L ND. eapply history_le; eauto. Qed.
Print Assumptions C30_supply_covers_balances_partial.
Theorem C30_supply_is_sum_partial : forall b f, history any_block b f -> forall cur, cur <> zero_addr ->
  (exists L, holders L b cur) /\ forall L, holders L b cur -> f cur = sum_over L b cur.
Proof.
  intros b f H cur NZ. destruct (history_sum _ b f H cur) as (_ & L & HL & _ & EQ). split; [eauto|]. intros L' HL'.
  rewrite <- (EQ ltac:(intros ?; congruence)). now apply holders_eq.
Qed.
Print Assumptions C30_supply_is_sum_partial.
(** of the native currency too, if no block burns fees *)
Theorem C30_native_supply_is_sum_partial : forall b f, history fees_paid_out b f -> forall cur,
  (exists L, holders L b cur) /\ forall L, holders L b cur -> f cur = sum_over L b cur.
Proof.
  intros b f H cur. destruct (history_sum _ b f H cur) as (_ & L & HL & _ & EQ). split; [eauto|]. intros L' HL'.
  rewrite <- (EQ ltac:(intros _ ? ?; auto)). now apply holders_eq.
Qed.
Print Assumptions C30_native_supply_is_sum_partial.
(** But a block may burn more than it creates: half of the fees, or all of them if nobody claims the reward.  The reported supply does not become
    less then.  Node::apply (src/Node.cpp:1079) clamps the change of the supply at zero. *)
Lemma out_sum_all cur l : out_sum cur l <= nsum (map to_amount l).
Proof. induction l as [|o l IH]; [reflexivity|]. rewrite out_sum_cons. cbn [map nsum fold_right]. unfold nsum in IH. destruct (addr_eqb _ _); lia. Qed.
Lemma history1 Q : history Q balances1 (apply_supply (fun _ => 0) [] outs0).
Proof. apply genesis. intros cur. eapply N.le_lt_trans; [apply out_sum_all|]. vm_compute. reflexivity. Qed.
Lemma bounded1 l : nsum (map to_amount l) < 2 ^ 64 -> forall cur, apply_supply (fun _ => 0) [] outs0 cur + out_sum cur l < 2 ^ 128.
Proof.
  intros H cur. pose proof (out_sum_all cur l). pose proof (out_sum_all cur outs0) as A. change (nsum (map to_amount outs0)) with 1000205 in A.
  change (2 ^ 64) with 18446744073709551616 in H. change (2 ^ 128) with 340282366920938463463374607431768211456.
  rewrite apply_supply_ok; [|change (2 ^ 128) with 340282366920938463463374607431768211456; lia]. lia.
Qed.
Definition after (P : rules) (bl : block) : balances := apply_balances balances1 (ins_of (b_txs bl)) (outs_of P bl).
Definition supply_after (P : rules) (bl : block) : supply := apply_supply (apply_supply (fun _ => 0) [] outs0) (ins_of (b_txs bl)) (outs_of P bl).
Lemma next1 (Q : rules -> block -> Prop) P reward amount : let bl := block1 reward amount in (exists s, validate_block (node1 90000) P db1 bl = Some s) -> Q P bl ->
  nsum (map to_amount (outs_of P bl)) < 2 ^ 64 -> history Q (after P bl) (supply_after P bl).
Proof.
  cbv zeta. intros (s & V) QB B. apply (next Q (node1 90000) P db1 (block1 reward amount) s); auto using history1, ledger1.
  exact (bounded1 _ B).
Qed.
Lemma holders_after P bl L cur : NoDup L -> nsum (map to_amount (outs0 ++ outs_of P bl)) < 2 ^ 128 ->
  forallb (fun o => existsb (addr_eqb (to_address o)) L) (outs0 ++ outs_of P bl) = true -> holders L (after P bl) cur.
Proof.
  intros ND B F. split; auto. intros a NZ.
  assert (NO : out_to a cur (outs0 ++ outs_of P bl) <> 0).
  { intros Z. apply NZ. rewrite out_to_app' in Z. unfold after. rewrite apply_ok.
    - unfold balances1. rewrite apply_ok; change (bal0 (fun _ _ => None) a cur) with 0; change (in_from a cur []) with 0; lia.
    - unfold balances1. rewrite apply_ok; change (bal0 (fun _ _ => None) a cur) with 0; change (in_from a cur []) with 0; lia. }
  destruct (out_to_in _ _ _ NO) as (o & I & <-). rewrite forallb_forall in F. specialize (F o I). apply existsb_exists in F. destruct F as (x & I2 & E).
  destruct (addr_eqb_spec (to_address o) x) as [->|]; [auto|discriminate].
Qed.
Lemma nodup4 : NoDup [aS; aO; aA; aB].
Proof. repeat (constructor; [cbn [In]; intuition discriminate|]). constructor. Qed.
Theorem C30_supply_is_sum_refuted : exists b f L, history any_block b f /\ holders L b zero_addr /\ sum_over L b zero_addr = 1000000 - 288664 /\ f zero_addr = 1000000.
Proof.
  exists (after (rules1 200000 [] 0) (block1 None 0)), (supply_after (rules1 200000 [] 0) (block1 None 0)), [aS; aO; aA; aB].
  split; [|split; [|split; vm_compute; reflexivity]].
  - apply next1; [exact block1_valid|exact Logic.I|vm_compute; reflexivity].
  - apply holders_after; [exact nodup4|vm_compute; reflexivity|vm_compute; reflexivity].
Qed.
Print Assumptions C30_supply_is_sum_refuted.
(** a history in which fees are paid out: the reward is at least the fees *)
Example C30_case : exists b f, history fees_paid_out b f /\ bal0 b aO zero_addr = 7 + 300000 /\ f zero_addr = 1000000 + 300000 - 288664.
Proof.
  exists (after (rules1 200000 [] 155668) (block1 (Some aO) 300000)), (supply_after (rules1 200000 [] 155668) (block1 (Some aO) 300000)).
  split; [|split; vm_compute; reflexivity].
  apply next1; [eexists; vm_compute; reflexivity|vm_compute; discriminate|vm_compute; reflexivity].
Qed.

(** ** C31.  The result that executing a transaction gave is accepted when the transaction is validated with it from the same state, and the storage that is
    committed is the same, provided the fee limit of the transaction covers its cost without rounding: cost * ratio / 1024 <= limit, in fractions.
    What a transaction has locked depends on its id, its operations and the contract it deploys, not on its result. *)
Theorem C31_result_is_accepted_partial : forall n bk t r bal w,
  backend_ok bk -> 0 < n_fee_exec n -> n_locked n (update r t) = n_locked n t -> t_result t = None ->
  validate n bk t bal = VDone r w -> rs_cost r * t_ratio t <= t_max_fee t * 1024 ->
  validate n bk (update r t) bal = VDone r w.
Proof. exact revalidates. Qed.
Print Assumptions C31_result_is_accepted_partial.
(** A block of the transactions that the node chose is valid if all limits cover the costs and no transaction that succeeded was left out after the
    execution. *)
Theorem C31_chosen_block_is_accepted_partial : forall n P d pool b,
  backend_ok (backend_of (SDb d)) -> 0 < n_fee_exec n -> locks_ok n -> bands_config n P ->
  NoDup (map (fun e => t_id (fst e)) pool) -> StronglySorted (fun e e' => t_ratio (fst e') <= t_ratio (fst e)) pool ->
  b_txs b = choose n P d pool ->
  b_reward_amount b = match b_reward_addr b with Some _ => final_reward P (fees_of (b_txs b)) | None => 0 end ->
  (forall t, In t (b_txs b) -> rs_cost (res t) * t_ratio t <= t_max_fee t * 1024) ->
  (forall t, In t (execute_txs n (d_bal d) (select_cost (p_max_cost P) 0 pool) (block_storage d)) -> rs_fail (res t) = false -> In t (b_txs b)) ->
  exists s, validate_block n P d b = Some s.
Proof.
  intros n P d pool b B F LO BC ND SS TX RW CO KEEP. destruct (choose_ok n P d pool B F BC ND SS) as (C1 & C2 & C3 & C4). cbv zeta in *.
  unfold validate_block. rewrite RW, N.eqb_refl. rewrite TX in *.
  apply N.leb_le in C1, C2. rewrite C1, C2, C3, C4. cbn [negb].
  apply (executed_runs n d (d_bal d) B F LO (select_cost (p_max_cost P) 0 pool)).
  - exact ram_empty_ok'.
  - unfold choose. eapply sub_trans; [apply choose_bands_sub|apply select_final_sub].
  - pose proof (execute_sub n (d_bal d) (select_cost (p_max_cost P) 0 pool) (block_storage d)) as S1.
    pose proof (select_cost_sub (p_max_cost P) pool 0) as S2. pose proof (sub_trans _ _ _ S1 S2) as S3. apply (sub_map fst) in S3. rewrite !map_map in S3.
    eapply sub_nodup; [exact S3|]. exact ND.
  - exact KEEP.
  - apply Forall_forall. exact CO.
Qed.
Print Assumptions C31_chosen_block_is_accepted_partial.
Definition txr (ratio max_fee : N) : tx :=
  let t := tx0 max_fee 10 None in
  mk_tx true (t_id t) 1 100 ratio max_fee (t_sender t) (t_inputs t) (t_outputs t) None (t_ops t) 20000 2 (t_key t) (t_sol t) None.
Example C31_case : exists r w, let n := node0 code_all 1000000 in
  validate n bk0 (txr 1500 80847) balances0 = VDone r (Some w) /\ rs_cost r * 1500 <= 80847 * 1024 /\ rs_fail r = false /\
  validate n bk0 (update r (txr 1500 80847)) balances0 = VDone r (Some w).
Proof. eexists. eexists. cbv zeta. split; [vm_compute; reflexivity|]. split; [vm_compute; discriminate|]. split; vm_compute; reflexivity. Qed.
(** The sender of a transaction chooses its limit; with these limits the result is refused.  In the first case the cost of the outputs that contracts made, which is
    added last, does not fit: the transaction failed, but when it is validated again this cost is part of the static cost and only compared with the limit when the fee
    is computed from a lower cost: it does not fail.  In the second case the fee is rounded down to the limit, the gas that the limit buys is rounded down again. *)
Theorem C31_result_is_accepted_refuted :
  (exists n bk t r bal, backend_ok bk /\ 0 < n_fee_exec n /\ n_locked n (update r t) = n_locked n t /\ t_result t = None /\
     validate n bk t bal = VDone r None /\ rs_fail r = true /\ validate n bk (update r t) bal = VReject) /\
  (exists n bk t r w bal, backend_ok bk /\ 0 < n_fee_exec n /\ n_locked n (update r t) = n_locked n t /\ t_result t = None /\
     validate n bk t bal = VDone r (Some w) /\ rs_fee r <= t_max_fee t /\ validate n bk (update r t) bal = VReject).
Proof.
  split.
  - exists (node0 code_all 1000000), bk0, (txr 2048 106400). eexists. exists balances0. split; [exact bk0_ok|]. split; [reflexivity|]. split; [reflexivity|]. split; [reflexivity|].
    split; [vm_compute; reflexivity|]. split; vm_compute; reflexivity.
  - exists (node0 code_all 1000000), bk0, (txr 1500 80846). eexists. eexists. exists balances0. split; [exact bk0_ok|]. split; [reflexivity|]. split; [reflexivity|]. split; [reflexivity|].
    split; [vm_compute; reflexivity|]. split; [vm_compute; discriminate|vm_compute; reflexivity].
Qed.
Print Assumptions C31_result_is_accepted_refuted.
(** And a transaction that is left out after the execution changes what happens to those behind it: here the second of three does not fit into the block, the third one
    failed because of what the second one did. *)
Definition pool1 : list (tx * N) := [(txn 21 2048 500000 None, 60000); (txn 22 2048 500000 None, 60000); (txn 23 2048 500000 None, 60000)].
Lemma pool1_sorted : StronglySorted (fun e e' : tx * N => t_ratio (fst e') <= t_ratio (fst e)) pool1.
Proof. repeat (constructor; [|repeat (constructor; [cbn; lia|]); constructor]). constructor. Qed.
Lemma pool1_nodup : NoDup (map (fun e : tx * N => t_id (fst e)) pool1).
Proof. repeat (constructor; [cbn [In map pool1]; intuition discriminate|]). constructor. Qed.
Lemma config1 size : size < 2 ^ 64 -> bands_config (node1 90000) (rules1 size [] 0).
Proof. intros H. split; [exact H|]. split; [intros i j (L1 & L2); cbn in L2; lia|]. split; [cbn; lia|]. intros K. now contradict K. Qed.
Lemma covered_all b : forallb (fun t => rs_cost (res t) * t_ratio t <=? t_max_fee t * 1024) (b_txs b) = true ->
  forall t, In t (b_txs b) -> rs_cost (res t) * t_ratio t <= t_max_fee t * 1024.
Proof. intros H t I. rewrite forallb_forall in H. apply N.leb_le. now apply H. Qed.
Theorem C31_chosen_block_is_accepted_refuted : exists n P d pool b,
  backend_ok (backend_of (SDb d)) /\ 0 < n_fee_exec n /\ locks_ok n /\ bands_config n P /\
  NoDup (map (fun e => t_id (fst e)) pool) /\ StronglySorted (fun e e' => t_ratio (fst e') <= t_ratio (fst e)) pool /\
  b_txs b = choose n P d pool /\ b_reward_addr b = None /\ b_reward_amount b = 0 /\
  (forall t, In t (b_txs b) -> rs_cost (res t) * t_ratio t <= t_max_fee t * 1024) /\ validate_block n P d b = None.
Proof.
  exists (node1 90000), (rules1 102000 [] 0), db1, pool1, (mk_block (choose (node1 90000) (rules1 102000 [] 0) db1 pool1) None None 0 aO).
  split; [exact db1_ok|]. split; [reflexivity|]. split; [intros t r; reflexivity|]. split; [apply config1; reflexivity|]. split; [exact pool1_nodup|].
  split; [exact pool1_sorted|]. split; [reflexivity|]. split; [reflexivity|]. split; [reflexivity|]. split; [|vm_compute; reflexivity].
  apply covered_all. vm_compute. reflexivity.
Qed.
Print Assumptions C31_chosen_block_is_accepted_refuted.
(** with a larger block nothing is left out *)
Example C31_block_case : exists s, length (choose (node1 90000) (rules1 202000 [] 0) db1 pool1) = 3%nat /\
  validate_block (node1 90000) (rules1 202000 [] 0) db1 (mk_block (choose (node1 90000) (rules1 202000 [] 0) db1 pool1) None None 0 aO) = Some s.
Proof. eexists. split; vm_compute; reflexivity. Qed.

(** ** C42.  Transactions that are chosen for a block pass the checks of their order, size, cost, balances and of the minimum fee ratio of every band, if the minimum
    ratios do not fall from band to band, the first one is at most one, and a band has room for every transaction. *)
Theorem C42_chosen_block_passes_partial : forall n P d pool,
  backend_ok (backend_of (SDb d)) -> 0 < n_fee_exec n ->
  p_max_size P < 2 ^ 64 ->
  (forall i j, (i <= j < length (p_bands P))%nat -> nth i (p_bands P) 0 <= nth j (p_bands P) 0) -> nth 0 (p_bands P) 0 <= 1 ->
  (p_bands P <> [] -> n_max_cost n <= p_max_size P / N.of_nat (length (p_bands P))) ->
  NoDup (map (fun e => t_id (fst e)) pool) -> StronglySorted (fun e e' => t_ratio (fst e') <= t_ratio (fst e)) pool ->
  let l := choose n P d pool in
  size_of n l <= p_max_size P /\ cost_of l <= p_max_cost P /\ check_txs [] None (d_bal d) l = true /\ bands_ok n P l = true.
Proof. intros n P d pool B F C1 C2 C3 C4 ND SS. apply choose_ok; auto. split; auto. Qed.
Print Assumptions C42_chosen_block_passes_partial.
(** two bands of 100000: the second transaction does not reach the ratio of the upper band, the others have no room in the lower one *)
Definition pool2 : list (tx * N) := [(txn 21 3072 500000 None, 60000); (txn 22 2048 500000 None, 60000); (txn 23 1024 500000 None, 60000); (txn 24 1024 500000 None, 60000)].
Example C42_case : map (fun t => hd 0 (t_id t)) (choose (node1 90000) (rules1 200000 [1; 3] 0) db1 pool2) = [21; 22] /\
  (length (execute_txs (node1 90000) (d_bal db1) (map fst pool2) (block_storage db1)) = 4)%nat /\
  bands_config (node1 90000) (rules1 200000 [1; 3] 0).
Proof.
  split; [vm_compute; reflexivity|]. split; [vm_compute; reflexivity|]. split; [reflexivity|].
  split; [intros i j (L1 & L2); cbn in L2; destruct i as [|[|i]], j as [|[|j]]; cbn; lia|]. split; [cbn; lia|]. intros _. vm_compute. discriminate.
Qed.
(** With other parameters the chosen block may be refused: when the first band asks for more than one, a ratio between one and that is chosen;
    when a transaction is larger than a band, more is taken from the band below than it has. *)
Theorem C42_chosen_block_passes_refuted :
  (exists n P d pool, backend_ok (backend_of (SDb d)) /\ 0 < n_fee_exec n /\ NoDup (map (fun e => t_id (fst e)) pool) /\
     StronglySorted (fun e e' => t_ratio (fst e') <= t_ratio (fst e)) pool /\ p_max_size P < 2 ^ 64 /\ p_bands P = [2] /\ n_max_cost n <= p_max_size P /\
     bands_ok n P (choose n P d pool) = false) /\
  (exists n P d pool, backend_ok (backend_of (SDb d)) /\ 0 < n_fee_exec n /\ NoDup (map (fun e => t_id (fst e)) pool) /\
     StronglySorted (fun e e' => t_ratio (fst e') <= t_ratio (fst e)) pool /\ p_max_size P < 2 ^ 64 /\ p_bands P = [1; 1; 2; 2; 2] /\
     bands_ok n P (choose n P d pool) = false).
Proof.
  split; [|
    exists (node1 90000), (rules1 105000 [1; 1; 2; 2; 2] 0), db1, [(txn 21 2048 500000 None, 60000); (txn 22 1024 500000 None, 60000)];
    split; [exact db1_ok|]; split; [reflexivity|]; split; [constructor; [cbn [In map fst t_id txn]; intuition discriminate|constructor; [intros []|constructor]]|];
    split; [repeat (constructor; [|repeat (constructor; [cbn; lia|]); constructor]); constructor|]; split; [reflexivity|]; split; [reflexivity|]; vm_compute; reflexivity].
  exists (node1 90000), (rules1 200000 [2] 0), db1, [(txn 23 1024 500000 None, 60000)].
  split; [exact db1_ok|]. split; [reflexivity|]. split; [constructor; [intros []|constructor]|]. split; [repeat constructor|]. split; [reflexivity|]. split; [reflexivity|].
  split; [vm_compute; discriminate|]. vm_compute. reflexivity.
Qed.
Print Assumptions C42_chosen_block_passes_refuted.
