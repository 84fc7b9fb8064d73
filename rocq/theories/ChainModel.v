(** Chain economics: rewards, fee split, base reward voting, difficulty updates (include/mmx/utils.h,
    src/BlockHeader.cpp, parts of src/Node.cpp, src/Node_update.cpp, src/Node_verify.cpp, src/Node_validate.cpp).
    uint64_t / uint32_t arithmetic wraps explicitly. *)
Require Import List NArith ZArith Bool.
Import ListNotations.
Open Scope N_scope.

Definition w64 (x : N) : N := x mod 2 ^ 64.
Definition w32 (x : N) : N := x mod 2 ^ 32.

(** interface/ChainParams.vni: the fields used below *)
Record params := mk_params {
  p_project_value : N; p_project_inverse : N; p_fixed_project_reward : N;
  p_min_reward : N; p_reward_activation : N;
  p_reward_adjust_div : N; p_reward_adjust_tick : N; p_reward_adjust_interval : N;
  p_avg_proof_count : N; p_max_proof_count : N; p_max_vdf_count : N; p_challenge_interval : N;
  p_max_diff_adjust : N; p_time_diff_divider : N; p_block_interval_ms : Z
}.

(** config/mainnet/chain/params.json with the defaults of ChainParams.vni:7-75 *)
Definition mainnet : params := {|
  p_project_value := 1; p_project_inverse := 100; p_fixed_project_reward := 50000;
  p_min_reward := 500000; p_reward_activation := 10000;
  p_reward_adjust_div := 100; p_reward_adjust_tick := 10000; p_reward_adjust_interval := 8640;
  p_avg_proof_count := 4; p_max_proof_count := 20; p_max_vdf_count := 100; p_challenge_interval := 256;
  p_max_diff_adjust := 10; p_time_diff_divider := 100; p_block_interval_ms := 10000
|}.

(** include/mmx/utils.h:228-233 *)
Definition calc_project_reward (p : params) (tx_fees : N) : N :=
  let dynamic := w64 (p_project_value p * tx_fees) / p_project_inverse p in
  N.min (w64 (p_fixed_project_reward p + dynamic)) (tx_fees / 2).

(** include/mmx/utils.h:235-241 *)
Definition calc_min_reward_deduction (txfee_buffer : N) : N :=
  N.min (N.max (txfee_buffer / 8640) 1000) txfee_buffer.

(** include/mmx/utils.h:243-249 *)
Definition calc_final_block_reward (p : params) (reward tx_fees : N) : N :=
  let fee_burn := tx_fees / 2 in
  let fee_deduction := calc_project_reward p tx_fees in
  w64 (reward + w64 (tx_fees + 2 ^ 64 - N.max fee_burn fee_deduction)).

(** include/mmx/utils.h:307-310 *)
Definition calc_new_txfee_buffer (txfee_buffer tx_fees : N) : N :=
  w64 (w64 (txfee_buffer + 2 ^ 64 - calc_min_reward_deduction txfee_buffer) + tx_fees).

(** src/Node.cpp:1779-1798; [prev] is (base_reward, txfee_buffer) of the previous block, [None] if unknown *)
Definition calc_block_reward (p : params) (has_proof : bool) (height : N) (prev : option (N * N)) (total_fees : N) : N :=
  if negb has_proof then 0
  else if height <? p_reward_activation p then 0
  else
    let '(base, ded) := match prev with
                        | Some (b, buf) => (b, calc_min_reward_deduction buf)
                        | None => (0, 0)
                        end in
    let reward := if ded <? p_min_reward p then w64 (base + (p_min_reward p - ded)) else base in
    calc_final_block_reward p reward total_fees.

(** *** Base reward voting *)
Local Open Scope Z_scope.

(** the voting fields of a block header; [v_height] is the block height *)
Record vhead := mk_vhead { v_height : Z; v_base : Z; v_sum : Z; v_count : Z }.

Definition reward_cap : Z := 4200000000000.

(** include/mmx/utils.h:251-270. int64_t arithmetic; no overflow since base_reward is capped (proved). *)
Definition calc_new_base_reward (p : params) (prev : vhead) : Z :=
  if v_count prev <? Z.of_N (p_reward_adjust_interval p) / 2 then v_base prev
  else
    let step := Z.max (v_base prev / Z.of_N (p_reward_adjust_div p)) (Z.of_N (p_reward_adjust_tick p)) in
    let reward := if 0 <? v_sum prev then v_base prev + step
                  else if v_sum prev <? 0 then v_base prev - step
                  else v_base prev in
    Z.max (Z.min reward reward_cap) 0.

(** src/BlockHeader.cpp:154-165 (set_base_reward), checked again in src/Node_validate.cpp:207-229;
    [vote] is reward_vote, in -1..1 (src/Node_validate.cpp:170-172) *)
Definition set_base_reward (p : params) (prev : vhead) (vote : Z) : vhead :=
  let h := v_height prev + 1 in
  let c := if vote =? 0 then 0 else 1 in
  if h mod Z.of_N (p_reward_adjust_interval p) =? 0 then mk_vhead h (calc_new_base_reward p prev) vote c
  else mk_vhead h (v_base prev) (v_sum prev + vote) (v_count prev + c).

(** The header after a chain of blocks with the given votes on top of a genesis block. *)
Definition vchain (p : params) (base0 : Z) (votes : list Z) : vhead :=
  fold_left (set_base_reward p) votes (mk_vhead 0 base0 0 0).

(** *** Space difficulty *)
Local Open Scope N_scope.

Record shead := mk_shead { s_diff : N; s_len : N; s_proofs : N }.

(** include/mmx/utils.h:278-303 *)
Definition calc_new_space_diff (p : params) (prev : shead) : N :=
  let diff := s_diff prev in
  if negb (diff / 2 ^ 48 =? 0) then diff - diff / 1024
  else if s_len prev =? 0 then diff
  else
    let expected := w32 (s_len prev * p_avg_proof_count p) in
    let new_diff := w64 (diff * s_proofs prev / expected) in
    let increase := expected <? s_proofs prev in
    let delta := if increase then w64 (new_diff + 2 ^ 64 - diff) else w64 (diff + 2 ^ 64 - new_diff) in
    let divider := N.max (w32 (16 * p_challenge_interval p) / s_len prev) 1 in
    let adjustment := N.max (delta / divider) 1 in
    if increase then w64 (diff + adjustment)
    else if adjustment <? diff then diff - adjustment else 1.

(** A block as far as the space difficulty is concerned. *)
Record sblock := mk_sblock { sb_vdf_count : N; sb_proof_count : N; sb_is_fork : bool }.

(** src/BlockHeader.cpp:139-152 (set_space_diff), checked again in src/Node_verify.cpp:142-163 *)
Definition set_space_diff (p : params) (prev : shead) (b : sblock) : shead :=
  if sb_is_fork b then mk_shead (calc_new_space_diff p prev) (sb_vdf_count b) (sb_proof_count b)
  else mk_shead (s_diff prev) (w32 (s_len prev + sb_vdf_count b)) (w32 (s_proofs prev + sb_proof_count b)).

(** The checks on these fields: src/BlockHeader.cpp:18 (vdf_count >= 1), src/Node_verify.cpp:81-96 (vdf_count and
    proof count), src/Node_validate.cpp:145 (space fork length), :156 (space_diff not zero) *)
Definition check_sblock (p : params) (prev : shead) (b : sblock) : bool :=
  let h := set_space_diff p prev b in
  (1 <=? sb_vdf_count b) && (sb_vdf_count b <=? p_max_vdf_count p) &&
  (1 <=? sb_proof_count b) && (sb_proof_count b <=? p_max_proof_count p) &&
  (s_len h <=? w32 (p_challenge_interval p * 100)) && negb (s_diff h =? 0).

Fixpoint schain (p : params) (h : shead) (bs : list sblock) : option shead :=
  match bs with
  | [] => Some h
  | b :: bs' => if check_sblock p h b then schain p (set_space_diff p h b) bs' else None
  end.

(** *** Time difficulty and time stamps of a produced block *)

(** src/Node_validate.cpp:948-957 *)
Definition validate_diff_adjust (p : params) (block prev : N) : bool :=
  let max_update := N.max (prev / 2 ^ p_max_diff_adjust p) 1 in
  negb ((prev <? block) && (max_update <? block - prev)) &&
  negb ((block <? prev) && (max_update <? prev - block)).

(** src/Node_update.cpp:985-991: the limit applied by make_block to its estimate [est] of the new difficulty *)
Definition limit_time_diff (p : params) (prev est : N) : N :=
  let max_update := N.max (prev / 2 ^ p_max_diff_adjust p) 1 in
  let t := if max_update <? prev then N.max est (prev - max_update) else est in
  N.min t (w64 (prev + max_update)).

(** src/Node_update.cpp:960-992: with no reference block the difficulty stays; [est] is the value computed in floating
    point at lines 976-982, of which only std::max(.., time_diff_divider) is used *)
Definition make_time_diff (p : params) (prev : N) (est : option N) : N :=
  match est with
  | None => prev
  | Some e => limit_time_diff p prev (N.max e (p_time_diff_divider p))
  end.

(** src/Node_update.cpp:993-999 *)
Definition make_time_stamp (p : params) (now prev vdf_count : Z) : Z :=
  let d := (now - prev)%Z in
  let d := Z.min d (vdf_count * p_block_interval_ms p * 2) in
  let d := Z.max d (vdf_count * p_block_interval_ms p / 2) in
  (prev + d)%Z.

(** src/Node_validate.cpp:148-155 *)
Definition check_time_stamp (p : params) (ts prev vdf_count : Z) : bool :=
  (0 <=? ts)%Z && (ts - prev <=? vdf_count * p_block_interval_ms p * 2)%Z &&
  (vdf_count * p_block_interval_ms p / 2 <=? ts - prev)%Z.
