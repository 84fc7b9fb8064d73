Require Import List ZArith NArith Lia Bool.
From Verif Require Import ChainModel ChainSpec.
Import ListNotations.

Ltac dlia :=
  repeat match goal with
         | |- context [N.div ?a ?b] => let x := fresh "x" in set (x := N.div a b) in *; clearbody x
         | H : context [N.div ?a ?b] |- _ => let x := fresh "x" in set (x := N.div a b) in *; clearbody x
         end; lia.

(** *** Fee split *)
Section FEES.
Open Scope N_scope.

Lemma project_le_half : forall p fees, calc_project_reward p fees <= fees / 2.
Proof. intros. apply N.le_min_r. Qed.

Lemma w64_id : forall x, x < 2 ^ 64 -> w64 x = x.
Proof. intros. now apply N.mod_small. Qed.
Lemma w32_id : forall x, x < 2 ^ 32 -> w32 x = x.
Proof. intros. now apply N.mod_small. Qed.
Lemma w64_sub : forall a b, b <= a -> a < 2 ^ 64 -> w64 (a + 2 ^ 64 - b) = a - b.
Proof.
  intros. unfold w64. replace (a + 2 ^ 64 - b) with ((a - b) + 1 * 2 ^ 64) by lia.
  rewrite N.mod_add by lia. apply N.mod_small. lia.
Qed.

Lemma final_reward : forall p reward fees, reward + fees < 2 ^ 64 ->
  calc_final_block_reward p reward fees = reward + (fees - fees / 2).
Proof.
  intros p reward fees H. unfold calc_final_block_reward.
  pose proof (project_le_half p fees) as Hp. rewrite N.max_l by auto.
  assert (fees / 2 <= fees) by (apply N.div_le_upper_bound; lia).
  rewrite w64_sub by lia. apply w64_id. lia.
Qed.

Lemma half_bounds : forall n, 2 * (n / 2) <= n <= 2 * (n / 2) + 1.
Proof. intros. pose proof (N.div_mod n 2 ltac:(lia)). pose proof (N.mod_lt n 2 ltac:(lia)).
  generalize dependent (n / 2). generalize dependent (n mod 2). intros. lia. Qed.

Lemma fee_split : forall p reward fees, reward + fees < 2 ^ 64 ->
  exists farmer, calc_final_block_reward p reward fees = reward + farmer /\
    farmer + calc_project_reward p fees <= fees /\ fees <= 2 * farmer <= fees + 1 /\
    2 * calc_project_reward p fees <= fees.
Proof.
  intros p reward fees H. exists (fees - fees / 2). split; [now apply final_reward|].
  pose proof (project_le_half p fees). pose proof (half_bounds fees). lia.
Qed.

Lemma project_exact : forall p fees, p_project_inverse p <> 0 ->
  p_project_value p * fees < 2 ^ 63 -> p_fixed_project_reward p < 2 ^ 63 ->
  calc_project_reward p fees = N.min (p_fixed_project_reward p + p_project_value p * fees / p_project_inverse p) (fees / 2).
Proof.
  intros p fees Hi Hv Hf. unfold calc_project_reward.
  rewrite (w64_id (p_project_value p * fees)) by lia.
  assert (p_project_value p * fees / p_project_inverse p <= p_project_value p * fees).
  { apply N.div_le_upper_bound; auto. nia. }
  rewrite w64_id by lia. reflexivity.
Qed.

Lemma deduction_le : forall b, calc_min_reward_deduction b <= b.
Proof. intros. apply N.le_min_r. Qed.

Lemma new_buffer : forall b fees, b + fees < 2 ^ 64 ->
  calc_new_txfee_buffer b fees = b - calc_min_reward_deduction b + fees.
Proof.
  intros b fees H. unfold calc_new_txfee_buffer. pose proof (deduction_le b).
  rewrite w64_sub by lia. apply w64_id. lia.
Qed.

Lemma buffer_history_gen : forall fees b, b + nsum fees < 2 ^ 64 ->
  fold_left calc_new_txfee_buffer fees b + nsum (deductions b fees) = b + nsum fees.
Proof.
  induction fees as [|f fs IH]; intros b H; cbn [fold_left deductions nsum fold_right] in *; [lia|].
  fold (nsum fs) in *. fold (nsum (deductions (calc_new_txfee_buffer b f) fs)).
  pose proof (deduction_le b). rewrite N.add_comm, <- N.add_assoc, (N.add_comm (nsum _)), IH.
  - rewrite new_buffer by lia. lia.
  - rewrite new_buffer by lia. lia.
Qed.

Lemma buffer_history : forall fees, nsum fees < 2 ^ 64 ->
  buffer_after fees + nsum (deductions 0 fees) = nsum fees.
Proof. intros. unfold buffer_after. rewrite buffer_history_gen; lia. Qed.

Lemma block_reward : forall p height b buf fees, p_reward_activation p <= height ->
  b + p_min_reward p + fees < 2 ^ 64 ->
  calc_block_reward p true height (Some (b, buf)) fees =
    b + (p_min_reward p - calc_min_reward_deduction buf) + (fees - fees / 2).
Proof.
  intros p height b buf fees Hh Hs. unfold calc_block_reward.
  replace (height <? p_reward_activation p) with false by (symmetry; apply N.ltb_ge; auto). simpl negb. cbv iota.
  destruct (N.ltb_spec (calc_min_reward_deduction buf) (p_min_reward p)).
  - rewrite w64_id by lia. apply final_reward. lia.
  - rewrite final_reward by lia. lia.
Qed.
End FEES.

(** *** Votes *)
Section VOTES.
Open Scope Z_scope.
Variable p : params.
Hypothesis Ipos : (1 <= p_reward_adjust_interval p)%N.
Let I := Z.of_N (p_reward_adjust_interval p).
Let In := N.to_nat (p_reward_adjust_interval p).

Lemma I_In : I = Z.of_nat In. Proof. unfold I, In. lia. Qed.
Lemma In_pos : (1 <= In)%nat. Proof. unfold In. lia. Qed.

Lemma vchain_snoc : forall b votes v, vchain p b (votes ++ [v]) = set_base_reward p (vchain p b votes) v.
Proof. intros. unfold vchain. rewrite fold_left_app. reflexivity. Qed.

Lemma vchain_height : forall b votes, v_height (vchain p b votes) = Z.of_nat (length votes).
Proof.
  intros b votes. induction votes as [|v votes IH] using rev_ind; [reflexivity|].
  rewrite vchain_snoc, app_length. unfold set_base_reward. rewrite IH.
  destruct (_ =? 0); simpl; lia.
Qed.

Lemma vote_at_app : forall votes v h, (h <= length votes)%nat -> vote_at (votes ++ [v]) h = vote_at votes h.
Proof. intros votes v [|h] H; simpl; auto. now rewrite app_nth1 by lia. Qed.
Lemma vote_at_last : forall votes v, vote_at (votes ++ [v]) (S (length votes)) = v.
Proof. intros. simpl. rewrite app_nth2 by lia. now rewrite Nat.sub_diag. Qed.

Lemma zsum_app : forall a b, zsum (a ++ b) = zsum a + zsum b.
Proof. induction a; intros; simpl; [reflexivity|]. unfold zsum in *. simpl. rewrite IHa. lia. Qed.
Lemma voters_app : forall a b, voters (a ++ b) = voters a + voters b.
Proof. intros. unfold voters. rewrite filter_app, app_length. lia. Qed.
Lemma voters_one : forall v, voters [v] = if v =? 0 then 0 else 1.
Proof. intros. unfold voters. simpl. destruct (v =? 0); reflexivity. Qed.

Lemma window_snoc : forall votes v i, (i <= S (length votes))%nat ->
  window (votes ++ [v]) (S i) (S (S (length votes))) = window votes i (S (length votes)) ++ [v].
Proof.
  intros votes v i H. unfold window. replace (S (S (length votes)) - S i)%nat with (S (length votes) - i)%nat by lia.
  rewrite seq_S, map_app. f_equal.
  - apply map_ext_in. intros h Hh. apply in_seq in Hh. apply vote_at_app. lia.
  - cbn [map]. replace (S (length votes) - i + i)%nat with (S (length votes)) by lia. now rewrite vote_at_last.
Qed.

Lemma vchain_counts : forall b votes, let n := length votes in
  let w := window votes (n mod In + 1) (n + 1) in
  v_sum (vchain p b votes) = zsum w /\ v_count (vchain p b votes) = voters w.
Proof.
  intros b votes. pose proof In_pos as HI. induction votes as [|v votes IH] using rev_ind.
  - cbv zeta. change (length (@nil Z)) with 0%nat. rewrite Nat.mod_0_l by lia. split; reflexivity.
  - cbv zeta in *. rewrite vchain_snoc, app_length. cbn [length].
    rewrite <- !plus_n_Sm, <- !plus_n_O in *. set (n := length votes) in *.
    unfold set_base_reward. rewrite vchain_height. fold n. fold I.
    replace (Z.of_nat n + 1) with (Z.of_nat (S n)) by lia. rewrite I_In, <- Nat2Z.inj_mod.
    pose proof (Nat.div_mod (S n) In ltac:(lia)) as E1. pose proof (Nat.div_mod n In ltac:(lia)) as E0.
    pose proof (Nat.mod_upper_bound n In ltac:(lia)) as U0. pose proof (Nat.mod_upper_bound (S n) In ltac:(lia)) as U1.
    destruct (Z.eqb_spec (Z.of_nat (S n mod In)) 0) as [Z0|Z0].
    + assert (S n mod In = 0)%nat as -> by lia. cbn [v_sum v_count].
      replace (window (votes ++ [v]) 1 (S (S n))) with [v].
      * rewrite voters_one. split; [simpl; lia|reflexivity].
      * subst n. rewrite window_snoc by lia. reflexivity.
    + assert (S n mod In = S (n mod In))%nat as ->.
      { assert (n mod In <> In - 1)%nat.
        { intros C. apply Z0. rewrite E0, C. replace (S (In * (n / In) + (In - 1)))%nat with (0 + (n / In + 1) * In)%nat by lia.
          rewrite Nat.mod_add by lia. rewrite Nat.mod_0_l; lia. }
        symmetry. apply (Nat.mod_unique (S n) In (n / In)); lia. }
      cbn [v_sum v_count]. destruct IH as [IHs IHc].
      assert (n mod In <= n)%nat by (apply Nat.mod_le; lia).
      subst n. rewrite window_snoc by lia.
      rewrite zsum_app, voters_app, voters_one, IHs, IHc. split; [simpl; lia|reflexivity].
Qed.

Lemma base_range : forall b votes, 0 <= b <= reward_cap -> 0 <= v_base (vchain p b votes) <= reward_cap.
Proof.
  intros b votes H. induction votes as [|v votes IH] using rev_ind; [exact H|].
  rewrite vchain_snoc. unfold set_base_reward. destruct (_ =? 0); [|exact IH].
  cbn [v_base]. unfold calc_new_base_reward. destruct (_ <? _); [exact IH|]. unfold reward_cap in *. lia.
Qed.

Lemma base_step : forall b votes v, 0 <= b <= reward_cap ->
  let h := S (length votes) in
  let old := v_base (vchain p b votes) in
  v_base (vchain p b (votes ++ [v])) =
    if (h mod In =? 0)%nat
    then adjusted (Z.of_N (p_reward_adjust_div p)) (Z.of_N (p_reward_adjust_tick p)) I (window votes In h) old
    else old.
Proof.
  intros b votes v Hb h old. pose proof In_pos as HI.
  pose proof (base_range b votes Hb) as R. fold old in R.
  rewrite vchain_snoc. unfold set_base_reward. rewrite vchain_height. fold I.
  replace (Z.of_nat (length votes) + 1) with (Z.of_nat h) by (unfold h; lia). rewrite I_In, <- Nat2Z.inj_mod.
  replace (Z.of_nat (h mod In) =? 0) with (h mod In =? 0)%nat
    by (destruct (Nat.eqb_spec (h mod In) 0), (Z.eqb_spec (Z.of_nat (h mod In)) 0); lia).
  destruct (Nat.eqb_spec (h mod In) 0) as [H0|H0]; [|reflexivity].
  destruct (vchain_counts b votes) as [Hs Hc]. cbn [v_base]. unfold calc_new_base_reward, adjusted, adjust_step.
  fold old. fold I. rewrite Hs, Hc.
  assert (W : (length votes mod In + 1 = In)%nat).
  { pose proof (Nat.div_mod h In ltac:(lia)) as E. rewrite H0 in E. unfold h in E at 1.
    assert (h / In <> 0)%nat by (intros C; rewrite C in E; lia).
    rewrite <- (Nat.mod_unique (length votes) In (h / In - 1) (In - 1)); [lia|lia|].
    destruct (h / In)%nat as [|k]; [congruence|]. rewrite Nat.mul_succ_r in E. simpl Nat.sub at 1. rewrite Nat.sub_0_r. lia. }
  rewrite W. replace (length votes + 1)%nat with h by (unfold h; lia). rewrite <- I_In.
  destruct (_ <? _); [reflexivity|].
  set (s := zsum _). unfold reward_cap in *. destruct (Z.compare_spec s 0) as [E|E|E].
  - rewrite E. simpl. lia.
  - replace (0 <? s) with false by (symmetry; apply Z.ltb_ge; lia).
    replace (s <? 0) with true by (symmetry; apply Z.ltb_lt; lia). lia.
  - replace (0 <? s) with true by (symmetry; apply Z.ltb_lt; lia). lia.
Qed.

(** the int32 sum and uint32 count cannot wrap *)
Lemma counts_bounded : forall b votes, valid_votes votes ->
  Z.abs (v_sum (vchain p b votes)) <= I /\ 0 <= v_count (vchain p b votes) <= I.
Proof.
  intros b votes HV. destruct (vchain_counts b votes) as [-> ->]. pose proof In_pos as HI.
  pose proof (Nat.mod_upper_bound (length votes) In ltac:(lia)) as U.
  set (w := window _ _ _).
  assert (L : Z.of_nat (length w) <= I) by (unfold w, window; rewrite map_length, seq_length, I_In; lia).
  assert (V : Forall (fun x => -1 <= x <= 1) w).
  { unfold w, window. apply Forall_map, Forall_forall. intros h _. destruct h as [|h]; simpl; [lia|].
    destruct (nth_in_or_default h votes 0) as [Hin| ->]; [|lia].
    unfold valid_votes in HV. rewrite Forall_forall in HV. now apply HV. }
  assert (B : Z.abs (zsum w) <= Z.of_nat (length w) /\ 0 <= voters w <= Z.of_nat (length w)).
  { clear L. induction V as [|x w' Hx V IH]; [unfold voters; simpl; lia|].
    change (x :: w') with ([x] ++ w'). rewrite zsum_app, voters_app, voters_one, app_length.
    simpl zsum. simpl length. destruct (x =? 0); lia. }
  lia.
Qed.
End VOTES.

(** *** Space difficulty *)
Section SPACE.
Open Scope N_scope.
Variable p : params.
Hypothesis SP : sane_space_params p.

Definition sinv (h : shead) : Prop :=
  1 <= s_diff h < 2 ^ 64 /\ s_len h <= p_challenge_interval p * 100 /\
  s_proofs h <= s_len h * p_max_proof_count p /\ (s_len h <> 0 -> 1 <= s_proofs h).

Definition expected (h : shead) : N := s_len h * p_avg_proof_count p.

Lemma mul_lt_mono : forall a b c m, a <= b -> b * c < m -> a * c < m.
Proof. intros. nia. Qed.

Lemma div_lo : forall a b, b <> 0 -> b * (a / b) <= a.
Proof. intros. now apply N.mul_div_le. Qed.
Lemma div_hi : forall a b, b <> 0 -> a < b * (a / b) + b.
Proof. intros. pose proof (N.div_mod a b H). pose proof (N.mod_lt a b H). lia. Qed.

Lemma calc_len : forall h, sinv h -> s_len h <> 0 -> s_diff h < 2 ^ 48 ->
  let e := expected h in
  let d := s_diff h in
  let q := d * s_proofs h / e in
  let div := N.max (w32 (16 * p_challenge_interval p) / s_len h) 1 in
  e <> 0 /\ q < 2 ^ 63 /\
  calc_new_space_diff p h =
    if e <? s_proofs h then d + N.max ((q - d) / div) 1
    else let adj := N.max ((d - q) / div) 1 in if adj <? d then d - adj else 1.
Proof.
  intros h (Hd & Hl & Hp & Hp1) Hn H48 e d q div. destruct SP as (A1 & A2 & A3 & A4 & A5 & A6 & A7).
  assert (E0 : e <> 0) by (unfold e, expected; nia).
  assert (Ew : w32 (s_len h * p_avg_proof_count p) = e).
  { apply w32_id. eapply mul_lt_mono; eauto. }
  assert (Q : q < 2 ^ 63).
  { unfold q. assert (d * s_proofs h / e <= d * p_max_proof_count p).
    { apply N.div_le_upper_bound; auto. unfold e, expected. fold d in H48.
      assert (s_proofs h <= s_len h * p_avg_proof_count p * p_max_proof_count p) by nia.
      transitivity (d * (s_len h * p_avg_proof_count p * p_max_proof_count p)); [now apply N.mul_le_mono_l|lia]. }
    fold d in H48. assert (d * p_max_proof_count p <= 2 ^ 48 * (2 ^ 15 - 1)) by (apply N.mul_le_mono; lia). lia. }
  split; [auto|]. split; [auto|].
  unfold calc_new_space_diff. fold d.
  replace (d / 2 ^ 48 =? 0) with true by (symmetry; apply N.eqb_eq, N.div_small; exact H48). cbn [negb].
  replace (s_len h =? 0) with false by (symmetry; now apply N.eqb_neq).
  rewrite Ew. fold q. rewrite (w64_id q) by lia. cbv zeta. fold div.
  destruct (N.ltb_spec e (s_proofs h)) as [Inc|Dec].
  - assert (d <= q) by (unfold q; apply N.div_le_lower_bound; auto; rewrite (N.mul_comm e); apply N.mul_le_mono_l; lia).
    rewrite w64_sub by lia. apply w64_id.
    assert ((q - d) / div <= q - d) by (apply N.div_le_upper_bound; unfold div; nia). fold d in H48. lia.
  - assert (q <= d) by (unfold q; apply N.div_le_upper_bound; auto; rewrite (N.mul_comm e); apply N.mul_le_mono_l; lia).
    fold d in H48. rewrite w64_sub by lia. reflexivity.
Qed.

Lemma calc_range : forall h, sinv h -> 1 <= calc_new_space_diff p h < 2 ^ 64.
Proof.
  intros h Hi. pose proof Hi as ((H1 & H2) & _). destruct (N.lt_ge_cases (s_diff h) (2 ^ 48)) as [H48|H48].
  - destruct (N.eq_dec (s_len h) 0) as [L0|L0].
    + unfold calc_new_space_diff. rewrite L0. destruct (negb _); [|simpl; lia].
      pose proof (div_lo (s_diff h) 1024 ltac:(discriminate)) as D. generalize dependent (s_diff h / 1024). intros. lia.
    + destruct (calc_len h Hi L0 H48) as (E0 & Q & ->). cbv zeta.
      set (div := N.max (w32 _ / _) 1). set (q := _ * _ / _) in *. assert (1 <= div) by (unfold div; apply N.le_max_r). clearbody q div.
      assert ((q - s_diff h) / div <= q - s_diff h) by (apply N.div_le_upper_bound; nia).
      destruct (_ <? s_proofs h); [dlia|]. destruct (N.ltb_spec (N.max ((s_diff h - q) / div) 1) (s_diff h)); dlia.
  - unfold calc_new_space_diff.
    replace (s_diff h / 2 ^ 48 =? 0) with false.
    + cbn [negb]. pose proof (div_lo (s_diff h) 1024 ltac:(discriminate)) as D.
      generalize dependent (s_diff h / 1024). intros. lia.
    + symmetry. apply N.eqb_neq. intros C. pose proof (div_hi (s_diff h) (2 ^ 48) ltac:(discriminate)) as D.
      rewrite C in D. lia.
Qed.

Lemma step_inv : forall h b, sinv h -> check_sblock p h b = true -> sinv (set_space_diff p h b).
Proof.
  intros h b Hi Hc. unfold check_sblock in Hc. rewrite !andb_true_iff, !N.leb_le in Hc.
  destruct Hc as [[[[[C1 C2] C3] C4] C5] C6]. pose proof (calc_range h Hi) as R.
  destruct Hi as (Hd & Hl & Hp & Hp1). destruct SP as (A1 & A2 & A3 & A4 & A5 & A6 & A7).
  rewrite w32_id in C5 by lia.
  unfold sinv, set_space_diff in *. destruct (sb_is_fork b); cbn [s_diff s_len s_proofs] in *.
  - repeat split; try lia. nia.
  - rewrite (w32_id (s_len h + _)) in * by lia.
    assert (B : s_proofs h + sb_proof_count b <= (s_len h + sb_vdf_count b) * p_max_proof_count p) by nia.
    rewrite w32_id.
    2:{ eapply N.le_lt_trans; [exact B|]. eapply N.le_lt_trans; [|exact A5]. now apply N.mul_le_mono_r. }
    repeat split; try lia.
Qed.

Lemma schain_inv : forall bs h h', sinv h -> schain p h bs = Some h' -> sinv h'.
Proof.
  induction bs as [|b bs IH]; intros h h' Hi H; simpl in H; [now injection H as <-|].
  destruct (check_sblock p h b) eqn:C; [|discriminate]. eapply IH; [|exact H]. now apply step_inv.
Qed.

Lemma genesis_inv : forall d, 1 <= d < 2 ^ 64 -> sinv (mk_shead d 0 0).
Proof. intros. unfold sinv; cbn [s_diff s_len s_proofs]. repeat split; try lia. Qed.

(** the measured rate: diff * proofs / expected *)
Lemma step_bounds : forall h, sinv h -> s_len h <> 0 -> s_diff h < 2 ^ 48 ->
  let new := calc_new_space_diff p h in
  (expected h < s_proofs h ->
     s_diff h < new /\ (new = s_diff h + 1 \/ new * expected h <= s_diff h * s_proofs h)) /\
  (s_proofs h <= expected h ->
     new <= s_diff h /\ (new = 1 \/ new < s_diff h) /\
     (s_diff h <= new + 1 \/ s_diff h * s_proofs h < (new + 1) * expected h)).
Proof.
  intros h Hi L0 H48 new. destruct (calc_len h Hi L0 H48) as (E0 & Q & E). unfold new. rewrite E. clear E new.
  cbv zeta. set (div := N.max (w32 _ / _) 1). set (q := _ * _ / _) in *. pose proof Hi as ((H1 & H2) & _).
  assert (D1 : 1 <= div) by (unfold div; lia).
  assert (Dle : forall x, x / div <= x) by (intros x; apply N.div_le_upper_bound; nia).
  pose proof (div_lo (s_diff h * s_proofs h) (expected h) E0) as QL.
  pose proof (div_hi (s_diff h * s_proofs h) (expected h) E0) as QH. fold q in QL, QH.
  split; intros Hc.
  - replace (expected h <? s_proofs h) with true by (symmetry; now apply N.ltb_lt).
    split; [lia|]. pose proof (Dle (q - s_diff h)) as D.
    destruct (N.le_gt_cases ((q - s_diff h) / div) 1) as [S|S]; [left; lia|right].
    rewrite N.max_l by lia. assert (s_diff h + (q - s_diff h) / div <= q) by lia.
    etransitivity; [apply N.mul_le_mono_r; eassumption|]. rewrite N.mul_comm. exact QL.
  - replace (expected h <? s_proofs h) with false by (symmetry; now apply N.ltb_ge).
    pose proof (Dle (s_diff h - q)) as D. set (adj := N.max ((s_diff h - q) / div) 1).
    destruct (N.ltb_spec adj (s_diff h)) as [A|A].
    + split; [lia|]. split; [unfold adj; right; lia|].
      destruct (N.le_gt_cases ((s_diff h - q) / div) 1) as [S|S]; [left; unfold adj; lia|right].
      unfold adj. rewrite N.max_l by lia.
      assert (q + 1 <= s_diff h - (s_diff h - q) / div + 1) by lia.
      eapply N.lt_le_trans; [exact QH|]. transitivity ((q + 1) * expected h); [lia|]. now apply N.mul_le_mono_r.
    + split; [lia|]. split; [left; lia|]. unfold adj in A.
      destruct (N.le_gt_cases (s_diff h) 2) as [S|S]; [left; lia|right].
      assert (q = 0) by lia. nia.
Qed.
End SPACE.

(** *** Time difficulty and time stamps *)
Section TIME.
Open Scope N_scope.
Variable p : params.
Lemma made_time_diff_ok : forall prev est, p_time_diff_divider p <= prev -> 2 * prev + 1 < 2 ^ 64 ->
  let d := make_time_diff p prev est in
  validate_diff_adjust p d prev = true /\ p_time_diff_divider p <= d.
Proof.
  intros prev est Hd Hp d. unfold validate_diff_adjust, d, make_time_diff, limit_time_diff. clear d.
  set (m := N.max (prev / 2 ^ p_max_diff_adjust p) 1).
  assert (M : m <= prev + 1).
  { unfold m. assert (prev / 2 ^ p_max_diff_adjust p <= prev).
    { pose proof (N.pow_nonzero 2 (p_max_diff_adjust p)). apply N.div_le_upper_bound; nia. } lia. }
  assert (m1 : 1 <= m) by (unfold m; lia).
  rewrite andb_true_iff, !negb_true_iff, !andb_false_iff, !N.ltb_ge.
  destruct est as [e|]; [|lia].
  rewrite w64_id by lia.
  destruct (N.ltb_spec m prev); lia.
Qed.
Close Scope N_scope.
Open Scope Z_scope.
Lemma made_time_stamp_ok : forall now prev vdf, 0 <= prev -> 0 <= vdf -> 0 <= p_block_interval_ms p ->
  check_time_stamp p (make_time_stamp p now prev vdf) prev vdf = true.
Proof.
  intros now prev vdf H0 Hv Hb. unfold check_time_stamp, make_time_stamp. cbv zeta.
  set (x := vdf * p_block_interval_ms p). assert (0 <= x) by (unfold x; nia).
  pose proof (Z.div_pos x 2 ltac:(lia) ltac:(lia)).
  assert (x / 2 <= x * 2) by (apply Z.div_le_upper_bound; lia).
  rewrite !andb_true_iff, !Z.leb_le. lia.
Qed.
End TIME.
