(** C130: payments of a block *)
Require Import List Arith NArith ZArith Bool Lia.
From Verif Require Import BytesLib OrdLib VarModel InstrModel EngineModel EngineSpec EngineProofs EngineUpper ExecModel ExecSpec ExecProofs ExecCases
  StorModel StorSpec StorProofs TxModel TxSpec TxProofs TxProps BlockModel BlockSpec BlockProofs BlockProps PaySpec.
Import ListNotations.
Open Scope N_scope.

Lemma half_up : forall x, x - x / 2 = (x + 1) / 2.
Proof.
  intros x. pose proof (N.div_mod x 2 ltac:(lia)) as A. pose proof (N.mod_lt x 2 ltac:(lia)) as B. pose proof (N.div_mod (x + 1) 2 ltac:(lia)) as C. pose proof (N.mod_lt (x + 1) 2 ltac:(lia)) as D.
  generalize dependent (x / 2). generalize dependent (x mod 2). generalize dependent ((x + 1) / 2). generalize dependent ((x + 1) mod 2). intros. lia.
Qed.
Lemma cut_eq : forall P f, project_reward P f = project_cut P f.
Proof. intros P f. unfold project_reward, project_cut. rewrite N.min_comm. now rewrite (N.mul_comm f). Qed.
Lemma cut_half : forall P f, project_cut P f <= f / 2.
Proof. intros P f. apply N.le_min_l. Qed.
Lemma final_eq : forall P f, final_reward P f = p_reward P + (f + 1) / 2.
Proof. intros P f. unfold final_reward. rewrite cut_eq, N.max_l by apply cut_half. now rewrite half_up. Qed.
Lemma valid_amount : forall n P d b s, validate_block n P d b = Some s -> b_reward_amount b = match b_reward_addr b with Some _ => final_reward P (fees_of (b_txs b)) | None => 0 end.
Proof.
  intros n P d b s V. unfold validate_block in V. destruct (negb (size_of _ _ <=? _)); [easy|]. destruct (negb (cost_of _ <=? _)); [easy|]. destruct (negb (check_txs _ _ _ _)); [easy|]. destruct (negb (bands_ok _ _ _)); [easy|].
  destruct (b_reward_amount b =? _) eqn:E; [|easy]. now apply N.eqb_eq in E.
Qed.
Lemma zero_cur : forall cur, addr_eqb zero_addr cur = true \/ addr_eqb zero_addr cur = false.
Proof. intros cur. destruct (addr_eqb zero_addr cur); auto. Qed.
Lemma reward_to : forall n P d b s, validate_block n P d b = Some s -> forall a cur,
  out_to a cur (reward_outs P b) = if addr_eqb zero_addr cur then timelord_share P b a + farmer_share P b a + project_share P b a else 0.
Proof.
  intros n P d b s V a cur. apply valid_amount in V. unfold reward_outs. rewrite !out_to_app', cut_eq. unfold timelord_share, farmer_share, project_share, is_paid.
  destruct (b_vdf_payout b) as [x|], (b_reward_addr b) as [y|]; try rewrite final_eq in V; try rewrite V;
    repeat match goal with |- context[if ?e =? 0 then _ else _] => let E := fresh in destruct (e =? 0) eqn:E; [apply N.eqb_eq in E|] end;
    cbn [out_to fold_right to_address to_currency to_amount];
    repeat match goal with |- context[addr_eqb ?u ?v] => destruct (addr_eqb u v) end; cbn [andb]; lia.
Qed.

(** Applying a valid block changes what an address has by what it spends and is sent in transactions, and in MMX by its shares.  Nobody else is paid. *)
Theorem C130_paid : forall n P d b s, ledger_ok n d (b_txs b) -> validate_block n P d b = Some s ->
  forall a cur, bal0 (d_bal d) a cur + out_to a cur (outs_of P b) < 2 ^ 128 ->
  bal0 (apply_balances (d_bal d) (ins_of (b_txs b)) (outs_of P b)) a cur + in_from a cur (ins_of (b_txs b)) =
  bal0 (d_bal d) a cur + out_to a cur (sent b) + if addr_eqb zero_addr cur then timelord_share P b a + farmer_share P b a + project_share P b a else 0.
Proof.
  intros n P d b s L V a cur B. rewrite (C29_balances_are_exact n P d b s L V a cur B). unfold outs_of. rewrite out_to_app', (reward_to n P d b s V). fold (sent b). lia.
Qed.
Print Assumptions C130_paid.

(** Of the fees the farmer and the project get no more than was paid, and what nobody gets is less than half *)
Theorem C130_fees : forall n P d b s, validate_block n P d b = Some s ->
  let fees := fees_of (b_txs b) in
  out_sum zero_addr (reward_outs P b) =
    (match b_vdf_payout b with Some _ => p_vdf_reward P | None => 0 end) + (match b_reward_addr b with Some _ => p_reward P + (fees + 1) / 2 | None => 0 end) + project_cut P fees /\
  (fees + 1) / 2 + project_cut P fees <= fees /\
  fees - ((fees + 1) / 2 + project_cut P fees) <= fees / 2.
Proof.
  intros n P d b s V fees. apply valid_amount in V. fold fees in V. pose proof (cut_half P fees). pose proof (half_up fees) as HU. assert (fees / 2 <= fees) by (apply N.div_le_upper_bound; lia). split; [|lia].
  unfold reward_outs. fold fees. rewrite cut_eq. rewrite !out_sum_app.
  destruct (b_vdf_payout b) as [x|], (b_reward_addr b) as [y|]; try rewrite final_eq in V; try rewrite V;
    repeat match goal with |- context[if ?e =? 0 then _ else _] => let E := fresh in destruct (e =? 0) eqn:E; [apply N.eqb_eq in E|] end;
    cbn [out_sum fold_right to_address to_currency to_amount]; rewrite ?addr_eqb_refl; lia.
Qed.
Print Assumptions C130_fees.

(** A block that does not claim what it may, or claims more, is not valid; who names no address gets nothing *)
Theorem C130_claim : forall n P d b s, validate_block n P d b = Some s ->
  b_reward_amount b = match b_reward_addr b with Some _ => p_reward P + (fees_of (b_txs b) + 1) / 2 | None => 0 end.
Proof. intros n P d b s V. rewrite (valid_amount n P d b s V). destruct (b_reward_addr b); [apply final_eq|easy]. Qed.
Print Assumptions C130_claim.

(** Cases *)
Definition pay_rules : rules := mk_rules 200000 1000000 [] 5 1000 1 100 9.
Definition pay_block : block := let b := block1 (Some aO) (9 + (fees_of (b_txs (block1 None 0)) + 1) / 2) in mk_block (b_txs b) (Some aB) (b_reward_addr b) (b_reward_amount b) aA.
Example C130_case : ledger_ok (node1 90000) db1 (b_txs pay_block) /\ (exists s, validate_block (node1 90000) pay_rules db1 pay_block = Some s) /\
  (timelord_share pay_rules pay_block aB, farmer_share pay_rules pay_block aO, project_share pay_rules pay_block aA, fees_of (b_txs pay_block)) = (5, 144341, 3886, 288664).
Proof. split; [apply ledger1|split; [eexists; vm_compute; reflexivity|vm_compute; reflexivity]]. Qed.
