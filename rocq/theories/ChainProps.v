(** Property theorems C35 (fee split), C36 (reward voting), C37 (space difficulty), C49 (time difficulty). *)
Require Import List ZArith NArith Lia.
From Verif Require Import ChainModel ChainSpec ChainProofs.
Import ListNotations.

(** C35: of the fees paid in a block the farmer gets (rounded up) half on top of the reward, the project gets at most
    half, and the two shares never exceed the fees. *)
Theorem C35_fee_split : forall p reward fees, (reward + fees < 2 ^ 64)%N ->
  exists farmer,
    calc_final_block_reward p reward fees = (reward + farmer)%N /\
    (farmer + calc_project_reward p fees <= fees)%N /\ (fees <= 2 * farmer <= fees + 1)%N /\
    (2 * calc_project_reward p fees <= fees)%N.
Proof. exact @fee_split. Qed.
Print Assumptions C35_fee_split.

(** The project's share is the fixed part plus the configured fraction, but at most half of the fees. *)
Theorem C35_project_share : forall p fees, p_project_inverse p <> 0%N ->
  (p_project_value p * fees < 2 ^ 63)%N -> (p_fixed_project_reward p < 2 ^ 63)%N ->
  calc_project_reward p fees
    = N.min (p_fixed_project_reward p + p_project_value p * fees / p_project_inverse p) (fees / 2).
Proof. exact @project_exact. Qed.
Print Assumptions C35_project_share.

(** What a farmer receives: base reward, minimum reward less the deduction, and its half of the fees. *)
Theorem C35_block_reward : forall p height base buffer fees, (p_reward_activation p <= height)%N ->
  (base + p_min_reward p + fees < 2 ^ 64)%N ->
  calc_block_reward p true height (Some (base, buffer)) fees
    = (base + (p_min_reward p - calc_min_reward_deduction buffer) + (fees - fees / 2))%N.
Proof. exact @block_reward. Qed.
Print Assumptions C35_block_reward.

(** Along any chain the buffer holds exactly the fees collected so far minus all deductions made so far, so it never
    goes negative and all deductions together never exceed the fees collected. *)
Theorem C35_buffer : forall fees, (nsum fees < 2 ^ 64)%N ->
  (buffer_after fees + nsum (deductions 0 fees) = nsum fees)%N.
Proof. exact @buffer_history. Qed.
Print Assumptions C35_buffer.

Example C35_ex1 : calc_final_block_reward mainnet 500000 123457 = (500000 + 61729)%N /\
  calc_project_reward mainnet 123457 = 51234%N /\ (51234 + 61729 <= 123457)%N.
Proof. vm_compute. repeat split; discriminate. Qed.
Example C35_ex2 : buffer_after [900; 0; 5000000; 7; 20000000]%N = 24998007%N /\
  deductions 0 [900; 0; 5000000; 7; 20000000]%N = [0; 900; 0; 1000; 1000]%N.
Proof. vm_compute. split; reflexivity. Qed.

(** C36: the base reward after a block at height [h] on top of any chain with votes [votes]: unchanged unless [h] is a
    multiple of the interval, else adjusted as the votes of the preceding interval demand. *)
Theorem C36_step : forall p, (1 <= p_reward_adjust_interval p)%N ->
  forall b votes v, (0 <= b <= 4200000000000)%Z ->
  let h := S (length votes) in
  let interval := N.to_nat (p_reward_adjust_interval p) in
  let old := v_base (vchain p b votes) in
  v_base (vchain p b (votes ++ [v])) =
    if (h mod interval =? 0)%nat
    then adjusted (Z.of_N (p_reward_adjust_div p)) (Z.of_N (p_reward_adjust_tick p))
           (Z.of_N (p_reward_adjust_interval p)) (window votes interval h) old
    else old.
Proof. exact @base_step. Qed.
Print Assumptions C36_step.

Theorem C36_range : forall p, (1 <= p_reward_adjust_interval p)%N -> forall b votes, (0 <= b <= 4200000000000)%Z ->
  (0 <= v_base (vchain p b votes) <= 4200000000000)%Z.
Proof. exact @base_range. Qed.
Print Assumptions C36_range.

(** The 32-bit vote counters of the header cannot overflow. *)
Theorem C36_counters : forall p, (1 <= p_reward_adjust_interval p < 2 ^ 31)%N ->
  forall b votes, valid_votes votes ->
  (- 2 ^ 31 < v_sum (vchain p b votes) < 2 ^ 31 /\ 0 <= v_count (vchain p b votes) < 2 ^ 32)%Z.
Proof.
  intros p H b votes HV. destruct (counts_bounded p ltac:(lia) b votes HV). lia.
Qed.
Print Assumptions C36_counters.

Example C36_ex :
  let p := mk_params 1 100 50000 500000 10000 100 10000 4 4 20 100 256 10 100 10000 in
  map (fun n => v_base (vchain p 3000000 (firstn n [1; 0; -1; 1; 1; 0; 0; 0; -1; -1; 0; 1; 1]%Z)))
    [3; 4; 7; 8; 11; 12; 13]%nat
  = [3000000; 3000000; 3000000; 3030000; 3030000; 2999700; 2999700]%Z.
Proof. vm_compute. reflexivity. Qed.

(** C37: on every chain accepted by the checks, the difficulty is never zero and fits
    64 bits. *)
Theorem C37_never_zero : forall p, sane_space_params p ->
  forall d bs h, (1 <= d < 2 ^ 64)%N -> schain p (mk_shead d 0 0) bs = Some h ->
  (1 <= s_diff h < 2 ^ 64 /\ 1 <= calc_new_space_diff p h < 2 ^ 64)%N.
Proof.
  intros p SP d bs h Hd H. assert (I : sinv p h) by (eapply schain_inv; eauto using genesis_inv).
  split; [exact (proj1 I)|now apply calc_range].
Qed.
Print Assumptions C37_never_zero.

(** C37: one update moves the difficulty towards (difficulty * proofs / expected proofs): strictly up when more proofs
    than expected were seen, down (by at least 1, unless already 1) otherwise; and it moves by 1 or does not overshoot
    that value. *)
Theorem C37_towards_rate : forall p, sane_space_params p ->
  forall d bs h, (1 <= d < 2 ^ 64)%N -> schain p (mk_shead d 0 0) bs = Some h ->
  (s_len h <> 0 -> s_diff h < 2 ^ 48 ->
  let new := calc_new_space_diff p h in
  let expected := s_len h * p_avg_proof_count p in
  (expected < s_proofs h ->
     s_diff h < new /\ (new = s_diff h + 1 \/ new * expected <= s_diff h * s_proofs h)) /\
  (s_proofs h <= expected ->
     new <= s_diff h /\ (new = 1 \/ new < s_diff h) /\
     (s_diff h <= new + 1 \/ s_diff h * s_proofs h < (new + 1) * expected)))%N.
Proof.
  intros p SP d bs h Hd H L0 H48.
  exact (step_bounds p SP h (schain_inv p SP bs _ h (genesis_inv p d Hd) H) L0 H48).
Qed.
Print Assumptions C37_towards_rate.

Example C37_sane_mainnet : sane_space_params mainnet.
Proof. unfold sane_space_params. vm_compute. repeat split; discriminate. Qed.
Example C37_ex :
  let b n k f := mk_sblock n k f in
  schain mainnet (mk_shead 100000 0 0) [b 1 4 false; b 3 20 false; b 1 20 true; b 2 9 false; b 1 1 true]%N
  = Some (mk_shead 100151 1 1)%N.
Proof. vm_compute. reflexivity. Qed.

(** C49: the difficulty and time stamp a node puts into its own block always pass the validator's checks, whatever the
    clock and the floating point estimate say. *)
Theorem C49_own_time_diff : forall p prev est, (p_time_diff_divider p <= prev)%N -> (2 * prev + 1 < 2 ^ 64)%N ->
  let d := make_time_diff p prev est in
  validate_diff_adjust p d prev = true /\ (p_time_diff_divider p <= d)%N.
Proof. exact @made_time_diff_ok. Qed.
Print Assumptions C49_own_time_diff.

Theorem C49_own_time_stamp : forall p now prev vdf, (0 <= prev -> 0 <= vdf -> 0 <= p_block_interval_ms p ->
  check_time_stamp p (make_time_stamp p now prev vdf) prev vdf = true)%Z.
Proof. exact @made_time_stamp_ok. Qed.
Print Assumptions C49_own_time_stamp.

Example C49_ex : make_time_diff mainnet 60000 (Some 12) = 59942%N /\ make_time_stamp mainnet 5000 1000000 3 = 1015000%Z.
Proof. vm_compute. split; reflexivity. Qed.
