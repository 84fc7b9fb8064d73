(** Proofs about the verification of proofs of time. *)
Require Import List Arith NArith Bool Lia.
Import ListNotations.
From Verif Require Import VdfModel VdfSpec.

Lemma w32_small n : (N.of_nat n < 2 ^ 32)%N -> w32 n = n.
Proof. intros L. unfold w32. rewrite N.mod_small by exact L. apply Nat2N.id. Qed.

Section PAR.
  Variable H : N -> N.
  Variable H2 : N -> N -> N.
  Notation iterate := (iterate H).

  Lemma iterate_hashes n x : Hashes H n x (iterate n x).
  Proof.
    unfold VdfModel.iterate. induction n as [|n IH] using N.peano_ind; [constructor|].
    rewrite N.iter_succ. constructor. exact IH.
  Qed.
  Lemma hashes_iterate n x y : Hashes H n x y -> y = iterate n x.
  Proof.
    induction 1 as [x|n x y A IH]; [reflexivity|].
    unfold VdfModel.iterate. rewrite N.iter_succ. now rewrite IH.
  Qed.
  Lemma iterate_add n m x : iterate (n + m) x = iterate m (iterate n x).
  Proof.
    unfold VdfModel.iterate. rewrite N.add_comm, N.iter_add. reflexivity.
  Qed.
  Lemma hashes_trans n m x y z : Hashes H n x y -> Hashes H m y z -> Hashes H (n + m) x z.
  Proof.
    intros A B. apply hashes_iterate in A. apply hashes_iterate in B. subst.
    rewrite <- iterate_add. apply iterate_hashes.
  Qed.

  Lemma two_by_two_map junk n : forall k l, (length l <= k)%nat -> two_by_two H junk n l = map (iterate n) l.
  Proof.
    induction k as [|k IH]; intros [|a [|b r]] L; cbn in L; try lia; try reflexivity.
    cbn [two_by_two map]. rewrite IH by lia. reflexivity.
  Qed.
  Lemma lanes_map n l : N.iter n (map H) l = map (iterate n) l.
  Proof.
    unfold VdfModel.iterate. induction n as [|n IH] using N.peano_ind; [cbn; symmetry; apply map_id|].
    rewrite N.iter_succ, IH, map_map. apply map_ext. intros x. now rewrite N.iter_succ.
  Qed.
  Lemma run_lanes_map pa n l : run_lanes H pa n l = map (iterate n) l.
  Proof. destruct pa as [junk|]; cbn; [now apply two_by_two_map with (k := length l)|apply lanes_map]. Qed.

  Variable pa : path.
  Variable p : proof.
  Hypothesis SZ : (N.of_nat (length (p_segments p)) < 2 ^ 32)%N.
  Notation segs := (p_segments p).
  Notation good i := (iterate (p_segment_size p) (start_of H2 p i) = nth i segs 0%N).

  Lemma chunks_num : num_chunks p = ((length segs + 15) / 16)%nat.
  Proof.
    unfold num_chunks, batch_size. replace (length segs + 16 - 1)%nat with (length segs + 15)%nat by lia.
    apply w32_small. eapply N.le_lt_trans; [|exact SZ].
    assert ((length segs + 15) / 16 <= length segs)%nat.
    { destruct (length segs) as [|n]; [cbn; lia|]. apply Nat.div_le_upper_bound; lia. }
    lia.
  Qed.
  Lemma lane_index c j : (j < num_lanes p c)%nat -> w32 (c * batch_size + j) = (c * 16 + j)%nat /\ (c * 16 + j < length segs)%nat.
  Proof.
    unfold num_lanes, batch_size. intros L. assert (c * 16 + j < length segs)%nat by lia.
    split; [|assumption]. apply w32_small. lia.
  Qed.

  Lemma chunk_nth c j : (j < num_lanes p c)%nat ->
    nth j (chunk_outputs H H2 pa p c) 0%N = iterate (p_segment_size p) (start_of H2 p (c * 16 + j)).
  Proof.
    intros L. unfold chunk_outputs. rewrite run_lanes_map.
    rewrite nth_indep with (d' := iterate (p_segment_size p) 0%N)
      by (rewrite !map_length, seq_length; exact L).
    rewrite map_nth. f_equal.
    rewrite nth_indep with (d' := (fun j => start_of H2 p (w32 (c * batch_size + j))) 0%nat)
      by (rewrite !map_length, seq_length; exact L).
    rewrite (map_nth (fun j => start_of H2 p (w32 (c * batch_size + j)))). rewrite seq_nth by exact L. cbn [Nat.add].
    destruct (lane_index c j L) as [-> _]. reflexivity.
  Qed.

  Lemma first_bad_none c : first_bad H H2 pa p c = None <-> forall j, (j < num_lanes p c)%nat -> good (c * 16 + j)%nat.
  Proof.
    unfold first_bad. split.
    - destruct (find _ _) eqn:F; [discriminate|]. intros _ j L.
      pose proof (find_none _ _ F j) as N0.
      rewrite in_seq in N0. specialize (N0 (conj (Nat.le_0_l _) L)).
      apply negb_false_iff, N.eqb_eq in N0. rewrite chunk_nth in N0 by exact L.
      destruct (lane_index c j L) as [-> _] in N0. exact N0.
    - intros G. destruct (find _ _) as [j|] eqn:F; [|reflexivity]. exfalso.
      apply find_some in F as [I B]. apply in_seq in I as [_ L]. cbn in L.
      apply negb_true_iff, N.eqb_neq in B. apply B. rewrite chunk_nth by exact L.
      destruct (lane_index c j L) as [-> _]. apply G. exact L.
  Qed.
  Lemma first_bad_some c i : first_bad H H2 pa p c = Some i -> (i < length segs)%nat /\ ~ good i.
  Proof.
    unfold first_bad. destruct (find _ _) as [j|] eqn:F; [|discriminate]. cbn [option_map]. intros [= <-].
    apply find_some in F as [I B]. apply in_seq in I as [_ L]. cbn in L.
    apply negb_true_iff, N.eqb_neq in B. rewrite chunk_nth in B by exact L.
    destruct (lane_index c j L) as [E Q]. rewrite E in *. auto.
  Qed.
  Lemma all_good_chunks : (forall c, (c < num_chunks p)%nat -> first_bad H H2 pa p c = None) <-> forall i, (i < length segs)%nat -> good i.
  Proof.
    rewrite chunks_num. split.
    - intros A i L. pose proof (Nat.div_mod i 16 ltac:(lia)) as D. pose proof (Nat.mod_upper_bound i 16 ltac:(lia)) as U.
      assert (C : (i / 16 < (length segs + 15) / 16)%nat).
      { apply Nat.div_lt_upper_bound; [lia|].
        pose proof (Nat.div_mod (length segs + 15) 16 ltac:(lia)). pose proof (Nat.mod_upper_bound (length segs + 15) 16 ltac:(lia)). lia. }
      specialize (A _ C). rewrite first_bad_none in A.
      specialize (A (i mod 16)). replace (i / 16 * 16 + i mod 16)%nat with i in A by lia. apply A.
      unfold num_lanes, batch_size. lia.
    - intros A c _. apply first_bad_none. intros j L. apply A. apply (lane_index c j L).
  Qed.

  (** the parallel loop *)
  Definition pinv (s : pstate) : Prop :=
    (snd s = 0%nat -> forall c, fst s c = Done -> first_bad H H2 pa p c = None) /\
    (snd s <> 0%nat -> exists i, (i < length segs)%nat /\ ~ good i).
  Lemma pinv_step s c : pinv s -> pinv (par_step H H2 pa p s c).
  Proof.
    destruct s as [st bad]. intros [A B]. cbn in A, B. unfold par_step.
    destruct (st c) eqn:E.
    - split; cbn; [|exact B]. intros Z d. unfold set_status. destruct (d =? c)%nat; [|now apply A].
      rewrite Z. cbn. discriminate.
    - destruct (first_bad H H2 pa p c) as [i|] eqn:F.
      + destruct (first_bad_some _ _ F) as [L G].
        assert (W : w32 (i + 1) = (i + 1)%nat) by (apply w32_small; lia).
        destruct (bad =? 0)%nat eqn:Z; split; cbn; intros Q; try (exfalso; rewrite W in Q; lia); try (exists i; auto).
        all: apply Nat.eqb_neq in Z; congruence.
      + split; cbn; [|exact B]. intros Z d. unfold set_status. destruct (d =? c)%nat eqn:K; [|now apply A].
        apply Nat.eqb_eq in K. now subst.
    - split; assumption.
  Qed.
  Lemma pinv_run sched : pinv (par_run H H2 pa p sched).
  Proof.
    unfold par_run. assert (G : forall l s, pinv s -> pinv (fold_left (par_step H H2 pa p) l s)).
    { induction l as [|c l IH]; intros s P; cbn; [exact P|]. apply IH. now apply pinv_step. }
    apply G. split; cbn; [discriminate|congruence].
  Qed.

  Lemma cpu_iff sched r : verify_vdf_cpu H H2 pa sched p = Some r ->
    (r = true <-> segs <> [] /\ forall i, (i < length segs)%nat -> good i).
  Proof.
    assert (C : segs = [] \/ segs <> []) by (clear; destruct segs; [left; reflexivity|right; discriminate]).
    destruct C as [Z|N0].
    - unfold verify_vdf_cpu. rewrite Z. intros [= <-]. split; [discriminate|]. intros [Q _]. congruence.
    - assert (E : verify_vdf_cpu H H2 pa sched p = if all_done p (par_run H H2 pa p sched) then Some (snd (par_run H H2 pa p sched) =? 0)%nat else None).
      { clear - N0. unfold verify_vdf_cpu. destruct segs; [congruence|reflexivity]. }
      rewrite E. destruct (all_done p _) eqn:D; [|discriminate]. intros [= <-].
      destruct (pinv_run sched) as [A B]. rewrite Nat.eqb_eq. split.
      + intros Z. split; [exact N0|]. apply all_good_chunks. intros c L. apply (A Z).
        unfold all_done in D. rewrite forallb_forall in D. specialize (D c).
        rewrite in_seq in D. specialize (D (conj (Nat.le_0_l _) L)). now destruct (fst _ c).
      + intros [_ G]. destruct (snd (par_run H H2 pa p sched)) eqn:Z; [reflexivity|].
        destruct B as (i & L & Q); [congruence|]. exfalso. apply Q, G, L.
  Qed.

  (** a schedule with every chunk twice comes to an end *)
  Lemma step_other s c d : c <> d -> fst (par_step H H2 pa p s d) c = fst s c.
  Proof.
    intros N0. destruct s as [st bad]. unfold par_step. destruct (st d); cbn; unfold set_status;
      try (replace (c =? d)%nat with false by (symmetry; apply Nat.eqb_neq; exact N0)); reflexivity.
  Qed.
  Definition rank (x : status) : nat := match x with Waiting => 0 | Running => 1 | Done => 2 end.
  Lemma step_rank s c : (Nat.min 2 (rank (fst s c) + 1) <= rank (fst (par_step H H2 pa p s c) c))%nat.
  Proof.
    clear SZ. destruct s as [st bad]. unfold par_step. cbn [fst]. destruct (st c) eqn:E; cbn [fst]; unfold set_status; rewrite ?Nat.eqb_refl, ?E.
    - destruct (bad =? 0)%nat; cbn; lia.
    - cbn. lia.
    - cbn. lia.
  Qed.
  Lemma run_rank c : forall l s, (Nat.min 2 (rank (fst s c) + count_occ Nat.eq_dec l c) <= rank (fst (fold_left (par_step H H2 pa p) l s) c))%nat.
  Proof.
    clear SZ. induction l as [|d l IH]; intros s; cbn [count_occ fold_left]; [lia|].
    specialize (IH (par_step H H2 pa p s d)). destruct (Nat.eq_dec d c) as [->|N0].
    - pose proof (step_rank s c). lia.
    - rewrite (step_other s c d ltac:(congruence)) in IH. exact IH.
  Qed.
  Lemma fair_ends sched : (forall c, (c < num_chunks p)%nat -> (2 <= count_occ Nat.eq_dec sched c)%nat) ->
    verify_vdf_cpu H H2 pa sched p <> None.
  Proof.
    clear SZ. intros F. unfold verify_vdf_cpu. destruct (p_segments p) eqn:S0; [discriminate|]. clear S0.
    assert (D : all_done p (par_run H H2 pa p sched) = true).
    { unfold all_done. apply forallb_forall. intros c I. apply in_seq in I as [_ L]. cbn in L. specialize (F c L).
      pose proof (run_rank c sched (fun _ => Waiting, 0%nat)) as R. cbn [fst rank] in R. unfold par_run.
      destruct (fst (fold_left (par_step H H2 pa p) sched (fun _ => Waiting, 0%nat)) c); cbn [rank] in R; [lia|lia|reflexivity]. }
    rewrite D. discriminate.
  Qed.

  (** checkpoints *)
  Lemma checkpoints_iff n : forall l x,
    Checkpoints H n x l <-> forall i, (i < length l)%nat -> iterate n (if (0 <? i)%nat then nth (i - 1) l 0%N else x) = nth i l 0%N.
  Proof.
    induction l as [|y l IH]; intros x.
    - split; [intros _ i L; cbn in L; lia|constructor].
    - split.
      + inversion 1 as [|x' y' l' A B]; subst. intros [|i] L; cbn [Nat.ltb Nat.leb].
        * symmetry. now apply hashes_iterate.
        * cbn [nth]. rewrite IH in B. cbn in L. specialize (B i ltac:(lia)).
          replace (S i - 1)%nat with i by lia. rewrite <- B. f_equal.
          destruct i as [|i]; [reflexivity|]. cbn [Nat.ltb Nat.leb]. replace (S i - 1)%nat with i by lia. reflexivity.
      + intros A. constructor.
        * specialize (A 0%nat ltac:(cbn; lia)). cbn in A. rewrite <- A. apply iterate_hashes.
        * apply IH. intros i L. specialize (A (S i) ltac:(cbn; lia)). cbn [Nat.ltb Nat.leb nth] in A.
          replace (S i - 1)%nat with i in A by lia. rewrite <- A. f_equal.
          destruct i as [|i]; [reflexivity|]. cbn [Nat.ltb Nat.leb]. replace (S i - 1)%nat with i by lia. reflexivity.
  Qed.
  Lemma good_checkpoints : (forall i, (i < length segs)%nat -> good i) <->
    Checkpoints H (p_segment_size p) (infused H2 (p_input p) (p_prev p) (p_reward p)) segs.
  Proof. rewrite checkpoints_iff. unfold start_of, infused. reflexivity. Qed.
End PAR.

Section NODE.
  Variable H : N -> N.
  Variable H2 : N -> N -> N.
  Lemma checkpoints_last n : forall l x d, Checkpoints H n x l -> l <> [] -> Hashes H (N.of_nat (length l) * n) x (last l d).
  Proof.
    induction l as [|y l IH]; intros x d C N0; [congruence|]. inversion C as [|x' y' l' A B]; subst.
    destruct l as [|z l].
    - cbn [last length]. replace (N.of_nat 1 * n)%N with n by lia. exact A.
    - change (last (y :: z :: l) d) with (last (z :: l) d).
      replace (N.of_nat (length (y :: z :: l)) * n)%N with (n + N.of_nat (length (z :: l)) * n)%N by (cbn [length]; lia).
      eapply hashes_trans; [exact A|]. apply IH; [exact B|discriminate].
  Qed.

  Variables (infuse_delay commit_delay max_vdf_count : nat) (vdf_segment_size : N) (block_iters : N -> N) (get_header : N -> option block)
            (well_signed : proof -> bool).
  Notation verify_vdf := (verify_vdf commit_delay vdf_segment_size block_iters get_header well_signed).
  Notation find_infusion := (find_infusion infuse_delay commit_delay block_iters get_header).
  Notation run := (run H H2 commit_delay vdf_segment_size block_iters get_header well_signed).
  Notation step := (step H H2 commit_delay vdf_segment_size block_iters get_header well_signed).

  Lemma verify_parts p : verify_vdf p = true ->
    p_segments p <> [] /\ (N.of_nat (length (p_segments p)) * p_segment_size p = p_num_iters p)%N /\
    exists b n, get_header (p_prev p) = Some b /\ iters_after commit_delay block_iters get_header b = Some n /\ p_num_iters p = n.
  Proof.
    unfold VdfModel.verify_vdf. rewrite !andb_true_iff. intros (((((_ & _) & _) & L) & _) & A).
    destruct (get_header (p_prev p)) as [b|] eqn:G; [|discriminate].
    destruct (iters_after _ _ _ b) as [n|] eqn:I; [|discriminate].
    rewrite !andb_true_iff in A. destruct A as ((A & _) & C). apply N.eqb_eq in A. apply N.eqb_eq in C.
    split; [|split; [congruence|exists b, n; auto]].
    intros Z. rewrite Z in L. discriminate.
  Qed.

  Definition pt_ok (q : point) : Prop := Hashes H (v_num_iters q) (infused H2 (v_input q) (v_prev q) (v_reward q)) (v_output q).
  Definition ev_size (e : event) : Prop :=
    match e with EvProof p _ _ _ => (N.of_nat (length (p_segments p)) < 2 ^ 32)%N | EvFinal _ => True end.
  Lemma proof_ok p pa sched recv : (N.of_nat (length (p_segments p)) < 2 ^ 32)%N -> verify_vdf p = true ->
    verify_vdf_cpu H H2 pa sched p = Some true -> pt_ok (point_of p recv).
  Proof.
    intros SZ V C. destruct (verify_parts p V) as (N0 & L & _).
    destruct (proj1 (cpu_iff H H2 pa p SZ sched true C) eq_refl) as [_ G]. apply good_checkpoints in G; [|exact SZ].
    unfold pt_ok, point_of, get_output. cbn [v_num_iters v_input v_prev v_reward v_output]. rewrite <- L. apply checkpoints_last; [exact G|exact N0].
  Qed.

  Lemma run_ok : forall l, Forall ev_size l -> Forall pt_ok (tree (run l)) /\ Forall pt_ok (index (run l)).
  Proof.
    unfold VdfModel.run. assert (G : forall l nd, Forall ev_size l -> Forall pt_ok (tree nd) /\ Forall pt_ok (index nd) ->
      Forall pt_ok (tree (fold_left step l nd)) /\ Forall pt_ok (index (fold_left step l nd))).
    { induction l as [|e l IH]; intros nd F P; cbn [fold_left]; [exact P|].
      inversion F as [|e' l' S0 R]; subst. apply IH; [exact R|]. destruct P as [P Q].
      destruct e as [p recv pa sched|k]; cbn [VdfModel.step].
      - destruct (find_vdf_point nd _ _); [auto|]. destruct (verify_vdf p) eqn:V; [|auto].
        destruct (verify_vdf_cpu H H2 pa sched p) as [[|]|] eqn:C; auto.
        cbn. split; apply Forall_app; split; auto; constructor; auto; now apply (proof_ok p pa sched recv).
      - cbn. split; rewrite Forall_forall in *; intros q I; apply filter_In in I as [I _]; auto. }
    intros l F. apply G; [exact F|]. split; constructor.
  Qed.

  (** ** infusions *)
  Lemma anc_app : forall n m a b c, Ancestor get_header n a b -> Ancestor get_header m b c -> Ancestor get_header (n + m) a c.
  Proof. intros n m a b c A B. induction A; [exact B|]. cbn. econstructor; eauto. Qed.
  Lemma back_spec : forall d b a, back get_header d b = Some a ->
    exists k, Ancestor get_header k b a /\ (k = d \/ (k < d /\ b_height a = 0%N))%nat.
  Proof.
    induction d as [|d IH]; intros b a; cbn [back].
    - intros [= <-]. exists 0%nat. split; [constructor|auto].
    - destruct (N.eqb (b_height b) 0) eqn:Z.
      + intros [= <-]. exists 0%nat. split; [constructor|]. right. apply N.eqb_eq in Z. split; [lia|exact Z].
      + destruct (get_header (b_prev b)) as [p|] eqn:G; [|discriminate]. intros B.
        destruct (IH _ _ B) as (k & A & D). exists (S k). split; [econstructor; eauto|].
        destruct D as [->|[L Q]]; [auto|right; split; [lia|exact Q]].
  Qed.
  Lemma iters_spec i n : iters_after commit_delay block_iters get_header i = Some n -> Interval_length commit_delay block_iters get_header i n.
  Proof.
    unfold iters_after. destruct (back _ _ _) as [a|] eqn:B; [|discriminate]. intros [= <-].
    destruct (back_spec _ _ _ B) as (k & A & D). exists k, a. auto.
  Qed.
  Lemma down_spec target : forall r b i, down_to get_header r target b = Some i ->
    exists n, Ancestor get_header n b i /\ (b_vdf_height i <= target)%nat /\
              forall m a, (m < n)%nat -> Ancestor get_header m b a -> (target < b_vdf_height a)%nat.
  Proof.
    induction r as [|r IH]; intros b i; cbn [down_to].
    - destruct (target <? b_vdf_height b)%nat eqn:T; [discriminate|]. intros [= <-]. apply Nat.ltb_ge in T.
      exists 0%nat. split; [constructor|split; [exact T|intros; lia]].
    - destruct (target <? b_vdf_height b)%nat eqn:T.
      + unfold find_prev. destruct (get_header (b_prev b)) as [p|] eqn:G; [|discriminate]. intros D.
        destruct (IH _ _ D) as (n & A & L & M). exists (S n). split; [econstructor; eauto|]. split; [exact L|].
        intros m a Q R. inversion R as [b'|m' b' p' a' G' R']; subst; [now apply Nat.ltb_lt|].
        rewrite G in G'. injection G' as <-. apply (M m'); [lia|exact R'].
      + intros [= <-]. apply Nat.ltb_ge in T. exists 0%nat. split; [constructor|split; [exact T|intros; lia]].
  Qed.
  Lemma infusion_spec b o h n : find_infusion b o = Some (h, n) ->
    exists i, Infused_block infuse_delay get_header b o i /\ b_hash i = h /\ Interval_length commit_delay block_iters get_header i n.
  Proof.
    unfold VdfModel.find_infusion. destruct (o <? infuse_delay)%nat eqn:D.
    - set (target := if (infuse_delay - o <? b_vdf_height b)%nat then (b_vdf_height b - (infuse_delay - o))%nat else 0%nat).
      assert (T : target = (b_vdf_height b + o - infuse_delay)%nat).
      { unfold target. apply Nat.ltb_lt in D. destruct (Nat.ltb_spec (infuse_delay - o) (b_vdf_height b)); lia. }
      destruct (down_to _ _ _ b) as [i|] eqn:W; [|discriminate].
      destruct (iters_after _ _ _ i) as [n'|] eqn:I; [|discriminate]. intros [= <- <-].
      destruct (down_spec _ _ _ _ W) as (k & A & L & M). exists i. split; [|split; [reflexivity|now apply iters_spec]].
      exists k. rewrite <- T. split; [exact A|]. split; [auto|]. apply Nat.ltb_lt in D. lia.
    - destruct (iters_after _ _ _ b) as [n'|] eqn:I; [|discriminate]. intros [= <- <-].
      exists b. split; [|split; [reflexivity|now apply iters_spec]].
      exists 0%nat. apply Nat.ltb_ge in D. split; [constructor|]. split; [lia|auto].
  Qed.

  (** ** blocks *)
  Lemma work_app x l y m z : Work H H2 x l y -> Work H H2 y m z -> Work H H2 x (l ++ m) z.
  Proof. induction 1; intros W; [exact W|]. cbn. econstructor; eauto. Qed.
  Lemma total_app l m : total (l ++ m) = (total l + total m)%N.
  Proof. induction l as [|e l IH]; cbn; [reflexivity|]. fold (total l) in *. fold (total (l ++ m)). rewrite IH. lia. Qed.

  (** the intervals of the first [n] offsets after [b] *)
  Fixpoint intervals (b : block) (n : nat) : option (list (N * N)) :=
    match n with
    | O => Some []
    | S k => match intervals b k, find_infusion b k with Some l, Some e => Some (l ++ [e]) | _, _ => None end
    end.
  Lemma intervals_length b : forall n l, intervals b n = Some l -> length l = n.
  Proof.
    induction n as [|n IH]; intros l; cbn; [intros [= <-]; reflexivity|].
    destruct (intervals b n); [|discriminate]. destruct (find_infusion b n) as [e|]; [|discriminate]. intros [= <-].
    rewrite app_length, (IH _ eq_refl). cbn. lia.
  Qed.
  Lemma intervals_nth b : forall n l, intervals b n = Some l -> forall o e, nth_error l o = Some e -> find_infusion b o = Some e.
  Proof.
    induction n as [|n IH]; intros l; cbn; [intros [= <-] o e; destruct o; discriminate|].
    destruct (intervals b n) as [m|] eqn:I; [|discriminate]. destruct (find_infusion b n) as [e|] eqn:F; [|discriminate]. intros [= <-] o e'.
    pose proof (intervals_length _ _ _ I) as L. destruct (Nat.lt_ge_cases o n) as [Q|Q].
    - rewrite nth_error_app1 by lia. apply IH. reflexivity.
    - rewrite nth_error_app2 by lia. destruct (o - length m)%nat as [|k] eqn:K; cbn; [|destruct k; discriminate].
      intros [= <-]. replace o with n by lia. exact F.
  Qed.
  Lemma intervals_prescribed b n l : intervals b n = Some l -> Prescribed infuse_delay commit_delay block_iters get_header b l.
  Proof. intros I o [h k] E. apply infusion_spec. now apply (intervals_nth b n l I). Qed.
  Lemma sum_total b : forall n s, sum_iters infuse_delay commit_delay block_iters get_header b n = Some s ->
    exists l, intervals b n = Some l /\ total l = s.
  Proof.
    induction n as [|n IH]; intros s; cbn; [intros [= <-]; exists []; auto|].
    destruct (sum_iters _ _ _ _ b n) as [s'|]; [|discriminate]. destruct (IH _ eq_refl) as (l & I & T). rewrite I.
    destruct (find_infusion b n) as [[h i]|]; [|discriminate]. intros [= <-]. exists (l ++ [(h, i)]). split; [reflexivity|].
    rewrite total_app, T. cbn. lia.
  Qed.

  Variable nd : node.
  Hypothesis TOK : Forall pt_ok (tree nd).
  (** the intervals that a list of points covers *)
  Definition spans (l : list point) : list (N * N) := map (fun q => (v_prev q, v_num_iters q)) l.
  Inductive joined : N -> list point -> N -> Prop :=
  | joined_nil x : joined x [] x
  | joined_cons q l y : joined (v_output q) l y -> joined (v_input q) (q :: l) y.

  Lemma points_back_spec prev : forall n out acc x l y,
    points_back infuse_delay commit_delay block_iters get_header nd prev n out acc = Some (x, l) -> joined out acc y ->
    joined x l y /\ exists front, l = front ++ acc /\ length front = n /\ incl front (tree nd) /\
      intervals prev n = Some (spans front).
  Proof.
    induction n as [|n IH]; intros out acc x l y; cbn [points_back].
    - intros [= <- <-] J. split; [exact J|]. exists []. split; [reflexivity|]. split; [reflexivity|]. split; [intros q []|reflexivity].
    - destruct (find_infusion prev n) as [[h i]|] eqn:F; [|discriminate].
      destruct (find _ _) as [q|] eqn:Q; [|discriminate]. intros P J.
      apply find_some in Q as [I B]. rewrite !andb_true_iff in B. destruct B as ((B1 & B2) & B3).
      apply N.eqb_eq in B1. apply N.eqb_eq in B2. apply N.eqb_eq in B3. unfold with_output in I. apply filter_In in I as [I _].
      destruct (IH (v_input q) (q :: acc) x l y P) as (J2 & front & -> & L & S0 & T).
      { rewrite <- B1 in J. now constructor. }
      split; [exact J2|]. exists (front ++ [q]). split; [now rewrite <- app_assoc|].
      split; [rewrite app_length; cbn; lia|]. split.
      + intros z Z. apply in_app_iff in Z as [Z|[<-|[]]]; auto.
      + cbn [intervals]. rewrite T, F. unfold spans. rewrite map_app. cbn. congruence.
  Qed.
  Lemma joined_work x l y : joined x l y -> incl l (tree nd) -> Work H H2 x (spans l) y.
  Proof.
    induction 1 as [x|q l y J IH]; intros S0; [constructor|]. cbn.
    rewrite Forall_forall in TOK. econstructor; [apply (TOK q); apply S0; now left|]. apply IH. intros z Z. apply S0. now right.
  Qed.
  Lemma found_work b l : find_vdf_points infuse_delay commit_delay block_iters get_header nd b = l -> l <> [] ->
    exists prev, find_prev get_header b = Some prev /\ Work H H2 (b_vdf_output prev) (spans l) (b_vdf_output b) /\
      intervals prev (b_vdf_count b) = Some (spans l) /\ length l = b_vdf_count b.
  Proof.
    unfold find_vdf_points. destruct (find_prev get_header b) as [prev|]; [|intros <-; congruence].
    destruct (points_back _ _ _ _ nd prev _ _ _) as [[x m]|] eqn:P; [|intros <-; congruence].
    destruct (N.eqb x (b_vdf_output prev)) eqn:E; [|intros <-; congruence]. intros <- N0.
    apply N.eqb_eq in E. subst x.
    destruct (points_back_spec _ _ _ _ _ _ _ P (joined_nil _)) as (J & front & Q & L & S0 & T).
    rewrite app_nil_r in Q. subst front. exists prev. split; [reflexivity|]. split; [now apply joined_work|]. auto.
  Qed.
End NODE.
