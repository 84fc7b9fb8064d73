(** Properties of proofs of time: C70, C71, C72. *)
Require Import List Arith NArith Bool Lia.
Import ListNotations.
From Verif Require Import VdfModel VdfSpec VdfProofs VdfNextProofs.

(** ** C70: A verified proof of time is the work it claims *)

(** However the chunks are spread over threads, whatever the machine: the verdict is that of the definition. *)
Theorem C70_verdict : forall (H : N -> N) (H2 : N -> N -> N) (pa : path) (sched : list nat) (p : proof) (verdict : bool),
  (N.of_nat (length (p_segments p)) < 2 ^ 32)%N ->
  verify_vdf_cpu H H2 pa sched p = Some verdict ->
  (verdict = true <->
   p_segments p <> [] /\ Checkpoints H (p_segment_size p) (infused H2 (p_input p) (p_prev p) (p_reward p)) (p_segments p)).
Proof.
  intros H H2 pa sched p v SZ V. rewrite (cpu_iff H H2 pa p SZ sched v V).
  rewrite (good_checkpoints H H2 p SZ). reflexivity.
Qed.
Print Assumptions C70_verdict.

(** A schedule that lets every chunk start and end gives a verdict. *)
Theorem C70_ends : forall (H : N -> N) (H2 : N -> N -> N) (pa : path) (sched : list nat) (p : proof),
  (forall c, c < num_chunks p -> 2 <= count_occ Nat.eq_dec sched c)%nat ->
  verify_vdf_cpu H H2 pa sched p <> None.
Proof. intros. now apply fair_ends. Qed.
Print Assumptions C70_ends.

(** A proof that passes both checks took as many hashes as it says, one after the other. *)
Theorem C70_work : forall (H : N -> N) (H2 : N -> N -> N) commit_delay segment_size block_iters get_header well_signed (pa : path) (sched : list nat) (p : proof),
  (N.of_nat (length (p_segments p)) < 2 ^ 32)%N ->
  verify_vdf commit_delay segment_size block_iters get_header well_signed p = true ->
  verify_vdf_cpu H H2 pa sched p = Some true ->
  Hashes H (p_num_iters p) (infused H2 (p_input p) (p_prev p) (p_reward p)) (get_output p).
Proof. intros. now apply (proof_ok H H2 commit_delay segment_size block_iters get_header well_signed p pa sched 0%N). Qed.
Print Assumptions C70_work.

Definition ex_H (x : N) : N := ((x * 5 + 3) mod 1000003)%N.
Definition ex_H2 (x y : N) : N := ((x * 1009 + y * 31 + 17) mod 1000003)%N.
(** a proof of [n] segments of two hashes each *)
Fixpoint ex_segs (n : nat) (x : N) : list N := match n with O => [] | S k => let y := ex_H (ex_H x) in y :: ex_segs k y end.
Definition ex_proof (n : nat) (start input prev reward : N) : proof :=
  mk_proof 0 1 1 start (N.of_nat n * 2) 2 input prev reward (ex_segs n (infused ex_H2 input prev reward)) 0 0 0.
Definition ex_bad : proof :=
  mk_proof 0 1 1 0 40 2 7 100 5 (firstn 17 (ex_segs 20 (infused ex_H2 7 100 5)) ++ [1%N] ++ skipn 18 (ex_segs 20 (infused ex_H2 7 100 5))) 0 0 0.
(** twenty segments, two chunks, run one after the other or at the same time; and the same with one wrong segment *)
Example C70_case :
  num_chunks (ex_proof 20 0 7 100 5) = 2%nat /\
  verify_vdf_cpu ex_H ex_H2 Lanes [0; 1; 1; 0]%nat (ex_proof 20 0 7 100 5) = Some true /\
  verify_vdf_cpu ex_H ex_H2 (Pairs 77) [1; 1; 0; 0]%nat (ex_proof 20 0 7 100 5) = Some true /\
  verify_vdf_cpu ex_H ex_H2 (Pairs 77) [1; 1; 0; 0]%nat ex_bad = Some false /\
  verify_vdf_cpu ex_H ex_H2 Lanes [0; 1; 1; 0]%nat ex_bad = Some false.
Proof. vm_compute. repeat split. Qed.

(** ** C71: The VDF output of an accepted block is sequential work since the first block *)

Section C71.
  Variables (H : N -> N) (H2 : N -> N -> N) (infuse_delay commit_delay max_vdf_count : nat) (segment_size : N) (block_iters : N -> N)
            (get_header : N -> option block) (well_signed : proof -> bool).
  (** [b] is accepted on top of [g] by a node that has processed some sequence of proofs *)
  Definition accepted (g b : block) : Prop :=
    get_header (b_prev b) = Some g /\
    check_block infuse_delay commit_delay max_vdf_count block_iters get_header g b = true /\
    exists events, Forall ev_size events /\
      find_vdf_points infuse_delay commit_delay block_iters get_header
        (run H H2 commit_delay segment_size block_iters get_header well_signed events) b <> [].
  Fixpoint accepted_chain (g : block) (l : list block) : Prop :=
    match l with [] => True | b :: r => accepted g b /\ accepted_chain b r end.
End C71.

Theorem C71_block : forall H H2 infuse_delay commit_delay max_vdf_count segment_size block_iters get_header well_signed g b,
  accepted H H2 infuse_delay commit_delay max_vdf_count segment_size block_iters get_header well_signed g b ->
  exists l, Prescribed infuse_delay commit_delay block_iters get_header g l /\
            Work H H2 (b_vdf_output g) l (b_vdf_output b) /\
            b_vdf_iters b = w64 (b_vdf_iters g + total l) /\
            length l = b_vdf_count b /\ (b_vdf_height b = b_vdf_height g + b_vdf_count b)%nat /\ (b_vdf_count b <= max_vdf_count)%nat.
Proof.
  intros H H2 inf cd mx seg bi gh ws g b (P & C & ev & SZ & F).
  destruct (run_ok H H2 cd seg bi gh ws ev SZ) as [T _].
  destruct (found_work H H2 inf cd bi gh _ T b _ eq_refl F) as (prev & FP & W & I & L).
  unfold find_prev in FP. rewrite P in FP. injection FP as <-.
  unfold check_block in C. rewrite !andb_true_iff in C. destruct C as (((_ & C1) & C2) & C3).
  destruct (sum_iters inf cd bi gh g (b_vdf_count b)) as [s|] eqn:S0; [|discriminate].
  destruct (sum_total _ _ _ _ _ _ _ S0) as (l & I2 & T2). rewrite I in I2. injection I2 as <-.
  exists (spans (find_vdf_points inf cd bi gh (run H H2 cd seg bi gh ws ev) b)). split; [|split; [exact W|split; [|split; [|split]]]].
  - now apply (intervals_prescribed inf cd bi gh g (b_vdf_count b)).
  - apply N.eqb_eq in C3. now rewrite T2.
  - unfold spans. now rewrite map_length.
  - now apply Nat.eqb_eq.
  - now apply Nat.leb_le.
Qed.
Print Assumptions C71_block.

Theorem C71_chain : forall H H2 infuse_delay commit_delay max_vdf_count segment_size block_iters get_header well_signed l g,
  accepted_chain H H2 infuse_delay commit_delay max_vdf_count segment_size block_iters get_header well_signed g l ->
  (b_vdf_iters g < 2 ^ 64)%N ->
  exists w, Work H H2 (b_vdf_output g) w (b_vdf_output (last l g)) /\
            b_vdf_iters (last l g) = w64 (b_vdf_iters g + total w) /\
            (b_vdf_height (last l g) = b_vdf_height g + length w)%nat.
Proof.
  intros H H2 inf cd mx seg bi gh ws. induction l as [|b l IH]; intros g A B.
  - exists []. split; [constructor|]. cbn. split; [|lia]. rewrite N.add_0_r. unfold w64. now rewrite N.mod_small.
  - destruct A as [A AC]. destruct (C71_block _ _ _ _ _ _ _ _ _ _ _ A) as (w1 & _ & W1 & E1 & L1 & V1 & _).
    assert (BB : (b_vdf_iters b < 2 ^ 64)%N) by (rewrite E1; unfold w64; now apply N.mod_lt).
    destruct (IH b AC BB) as (w2 & W2 & E2 & V2). exists (w1 ++ w2).
    replace (last (b :: l) g) with (last l b).
    2:{ destruct l as [|c l]; [reflexivity|]. change (last (b :: c :: l) g) with (last (c :: l) g).
        clear. revert c. induction l as [|d l IH]; intros c; [reflexivity|]. exact (IH d). }
    split; [now apply (work_app H H2 _ w1 (b_vdf_output b))|]. split.
    + rewrite E2, E1, total_app. unfold w64. rewrite N.add_mod_idemp_l by discriminate. f_equal. lia.
    + rewrite V2, V1, app_length. lia.
Qed.
Print Assumptions C71_chain.

(** a small chain: segments of two hashes, the time difficulty is the length of an interval, the block one VDF step back is infused *)
Definition ex_g : block := mk_block 100 99 0 0 0 0 7 4.
Definition ex_out1 : N := get_output (ex_proof 2 0 7 100 5).
Definition ex_b1 : block := mk_block 101 100 1 1 1 4 ex_out1 6.
Definition ex_header (h : N) : option block := if N.eqb h 100 then Some ex_g else if N.eqb h 101 then Some ex_b1 else None.
Definition ex_run : list event -> node := run ex_H ex_H2 0 2 (fun d => d) ex_header (fun _ => true).
Definition ex_ev (p : proof) (recv : N) : event := EvProof p recv Lanes [0; 0]%nat.
(** the next proof after [ex_b1], with the first block infused, and the one after that *)
Definition ex_p2 : proof := ex_proof 2 4 ex_out1 100 5.
Definition ex_p3 : proof := ex_proof 3 8 (get_output ex_p2) 101 5.
Definition ex_b2 : block := mk_block 102 101 2 2 3 14 (get_output ex_p3) 6.
Example C71_case :
  accepted_chain ex_H ex_H2 1 0 4 2 (fun d => d) ex_header (fun _ => true) ex_g [ex_b1; ex_b2].
Proof.
  split; [|split; [|exact Logic.I]].
  - split; [reflexivity|]. split; [vm_compute; reflexivity|]. exists [ex_ev (ex_proof 2 0 7 100 5) 1].
    split; [constructor; [vm_compute; reflexivity|constructor]|vm_compute; discriminate].
  - split; [reflexivity|]. split; [vm_compute; reflexivity|]. exists [ex_ev (ex_proof 2 0 7 100 5) 1; ex_ev ex_p2 2; ex_ev ex_p3 3; EvFinal 4].
    split; [repeat (constructor; [vm_compute; (reflexivity || exact Logic.I)|]); constructor|vm_compute; discriminate].
Qed.

(** ** C72: Whatever proofs of time arrive, a node goes on from those that are right *)

(** Full statement: for all events, find_next_vdf_points on any block of the chain ends, what it returns makes a block that the node itself accepts,
    and it is not empty once the proof of the next interval was verified.  Nothing compares the start a proof names with the position of its input. *)

(** A proof that skips an interval: correct hashes, the block infused that is right for one interval later, a start one interval later.
    The node then builds its block on that proof alone and does not accept that block. *)
Definition ex_skip : proof := ex_proof 3 8 ex_out1 101 6.
Definition ex_points (evs : list event) : option (list point) := find_next_vdf_points 1 0 4 (fun d => d) ex_header 10 (ex_run evs) ex_b1.
Theorem C72_refuted_skipped :
  exists nb, option_map (fun l => make_block 102 6 ex_b1 l) (ex_points [ex_ev ex_p2 1; ex_ev ex_skip 2]) = Some (Some nb) /\
    find_vdf_points 1 0 (fun d => d) ex_header (ex_run [ex_ev ex_p2 1; ex_ev ex_skip 2]) nb = [] /\
    option_map (@length point) (ex_points [ex_ev ex_p2 1]) = Some 1%nat.
Proof.
  eexists. split; [vm_compute; reflexivity|]. split; vm_compute; reflexivity.
Qed.
Print Assumptions C72_refuted_skipped.

(** The same proof with another start, signed by someone else, is stored where nobody looks, and the right one is then a duplicate. *)
Definition ex_moved : proof := ex_proof 2 1000 ex_out1 100 5.
Theorem C72_refuted_displaced :
  ex_points [ex_ev ex_p2 1] <> Some [] /\
  ex_points [ex_ev ex_moved 1; ex_ev ex_p2 2] = Some [].
Proof. split; vm_compute; [discriminate|reflexivity]. Qed.
Print Assumptions C72_refuted_displaced.

(** Where the starts are right: there is a position for every output, and each proof names that of its input; an output comes from one input and one infusion only. *)
Definition Starts_right (pos : N -> N) (source : N -> N * (N * N)) (events : list event) : Prop :=
  forall p recv pa sched, In (EvProof p recv pa sched) events ->
    p_start p = pos (p_input p) /\ (p_start p + p_num_iters p = pos (get_output p))%N /\ (pos (get_output p) < 2 ^ 64)%N /\
    source (get_output p) = (p_input p, (p_prev p, p_num_iters p)).

Lemma says_right pos source events : Starts_right pos source events -> Forall (ev_says pos source) events.
Proof. intros S0. apply Forall_forall. intros [p recv pa sched|k] I; [|exact Logic.I]. exact (S0 _ _ _ _ I). Qed.

Theorem C72_own_block_partial : forall H H2 infuse_delay commit_delay max_vdf_count segment_size block_iters get_header well_signed pos source events b rounds l hash td nb,
  Starts_right pos source events ->
  pos (b_vdf_output b) = b_vdf_iters b -> (b_vdf_iters b < 2 ^ 64)%N -> get_header (b_hash b) = Some b -> (max_vdf_count < rounds)%nat ->
  let nd := run H H2 commit_delay segment_size block_iters get_header well_signed events in
  find_next_vdf_points infuse_delay commit_delay max_vdf_count block_iters get_header rounds nd b = Some l ->
  make_block hash td b l = Some nb ->
  find_vdf_points infuse_delay commit_delay block_iters get_header nd nb = l /\ l <> [] /\
  check_block infuse_delay commit_delay max_vdf_count block_iters get_header b nb = true.
Proof.
  intros H H2 inf cd mx seg bi gh ws pos source evs b rounds l hash td nb S0 BP BS GB RN nd F M.
  pose proof (held_run H H2 cd seg bi gh ws pos source evs (says_right _ _ _ S0)) as HD.
  exact (made_block_ok H H2 inf cd mx seg bi gh pos source nd HD b BP BS rounds l hash td nb RN GB F M).
Qed.
Print Assumptions C72_own_block_partial.

Theorem C72_progress_partial : forall H H2 infuse_delay commit_delay max_vdf_count segment_size block_iters get_header well_signed pos source events b rounds p recv pa sched,
  Starts_right pos source (events ++ [EvProof p recv pa sched]) ->
  pos (b_vdf_output b) = b_vdf_iters b -> (b_vdf_iters b < 2 ^ 64)%N -> (0 < max_vdf_count < rounds)%nat ->
  (forall o, o < max_vdf_count -> find_infusion infuse_delay commit_delay block_iters get_header b o <> None)%nat ->
  (** [p] is a correct proof for the interval after [b] *)
  verify_vdf commit_delay segment_size block_iters get_header well_signed p = true ->
  verify_vdf_cpu H H2 pa sched p = Some true ->
  p_input p = b_vdf_output b ->
  find_infusion infuse_delay commit_delay block_iters get_header b 0 = Some (p_prev p, p_num_iters p) ->
  exists l, find_next_vdf_points infuse_delay commit_delay max_vdf_count block_iters get_header rounds
              (run H H2 commit_delay segment_size block_iters get_header well_signed (events ++ [EvProof p recv pa sched])) b = Some l /\ l <> [].
Proof.
  intros H H2 inf cd mx seg bi gh ws pos source evs b rounds p recv pa sched S0 BP BS (MX & RN) AV V C E1 FI.
  pose proof (held_run H H2 cd seg bi gh ws pos source _ (says_right _ _ _ S0)) as HD.
  set (nd := run H H2 cd seg bi gh ws (evs ++ [EvProof p recv pa sched])) in *.
  assert (SP : source (get_output p) = (p_input p, (p_prev p, p_num_iters p))).
  { apply (S0 p recv pa sched). apply in_or_app. right. now left. }
  assert (Q : exists q, In q (index nd) /\ v_output q = get_output p).
  { unfold nd, run. rewrite fold_left_app. cbn [fold_left step].
    set (nd0 := fold_left _ evs _). destruct (find_vdf_point nd0 (p_input p) (get_output p)) as [q|] eqn:F.
    - assert (HD0 : held pos source nd0).
      { apply (held_run H H2 cd seg bi gh ws). apply Forall_forall. intros e I.
        assert (FA := says_right _ _ _ S0). rewrite Forall_forall in FA. apply FA. apply in_or_app. now left. }
      unfold find_vdf_point in F. apply find_some in F as [I E]. apply andb_true_iff in E as [_ E]. apply N.eqb_eq in E.
      unfold with_output in I. apply filter_In in I as [I _]. destruct HD0 as (T & _). rewrite T in I. exists q. auto.
    - rewrite V, C. exists (point_of p recv). split; [cbn; apply in_or_app; right; now left|reflexivity]. }
  destruct Q as (q & Q & O). destruct HD as (T & D & F). pose proof F as F0. rewrite Forall_forall in F0.
  destruct (F0 q Q) as (_ & _ & _ & Z & _). rewrite O, SP in Z. injection Z as Z1 Z2 Z3.
  apply (next_found H H2 inf cd mx seg bi gh pos source nd (conj T (conj D F)) b BP BS rounds q (p_prev p) (p_num_iters p) RN MX FI Q); try congruence.
  assert (G : forall n, (n <= mx)%nat -> intervals inf cd bi gh b n <> None).
  { induction n as [|n IH]; intros L; cbn; [discriminate|]. specialize (IH ltac:(lia)).
    destruct (intervals inf cd bi gh b n); [|congruence]. specialize (AV n ltac:(lia)).
    destruct (find_infusion inf cd bi gh b n); [discriminate|congruence]. }
  apply G. lia.
Qed.
Print Assumptions C72_progress_partial.

(** two proofs in a row, the starts right *)
Definition ex_pos (x : N) : N :=
  if N.eqb x ex_out1 then 4 else if N.eqb x (get_output ex_p2) then 8 else if N.eqb x (get_output ex_p3) then 14 else 0.
Definition ex_source (x : N) : N * (N * N) :=
  if N.eqb x (get_output ex_p2) then (ex_out1, (100, 4)%N) else (get_output ex_p2, (101, 6)%N).
Example C72_case :
  Starts_right ex_pos ex_source [ex_ev ex_p2 1; ex_ev ex_p3 2] /\
  ex_pos (b_vdf_output ex_b1) = b_vdf_iters ex_b1 /\ ex_header (b_hash ex_b1) = Some ex_b1 /\
  option_map (@length point) (ex_points [ex_ev ex_p2 1; ex_ev ex_p3 2]) = Some 2%nat /\
  (forall o, o < 4 -> find_infusion 1 0 (fun d => d) ex_header ex_b1 o <> None)%nat /\
  find_infusion 1 0 (fun d => d) ex_header ex_b1 0 = Some (p_prev ex_p2, p_num_iters ex_p2).
Proof.
  split.
  { intros p recv pa sched [E|[E|[]]]; injection E as <- _ _ _; vm_compute; repeat split. }
  split; [vm_compute; reflexivity|]. split; [reflexivity|]. split; [vm_compute; reflexivity|]. split.
  - intros o L. destruct o as [|[|[|[|o]]]]; try lia; vm_compute; discriminate.
  - vm_compute. reflexivity.
Qed.
