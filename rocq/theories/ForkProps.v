(** C38: the choice of the peak.  C39: votes.  C66: what becomes final. *)
Require Import List Arith NArith Bool Lia Sorting.Permutation Sorting.Sorted.
From Verif Require Import OrdLib BytesLib EngineModel EngineUpper ForkModel ForkSpec ForkProofs ForkVotes.
Import ListNotations.
Open Scope N_scope.

Lemma epoch_base cd mh mv ok vote_ok U root older n : epoch cd mh mv ok vote_ok U root older n -> U root /\ Forall (fun b => U b /\ h_height b < h_height root) older.
Proof. induction 1; auto. Qed.

(** ** Examples *)
Definition ex_ok (b : header) : bool := negb (addr_eqb (h_hash b) [66]).
Definition ex_news : news := mk_news (fun _ => true) (fun _ => Some true) (fun _ => true) (fun _ => false) (fun _ => false) (fun _ => true) 1000 (fun _ => true).
Definition ex_g := mk_header [1] [0] 9 100 (Some [101]).
Definition ex_r := mk_header [2] [1] 10 110 (Some [102]).
Definition ex_start := mk_node ex_r [] [ex_r; ex_g] [ex_r; ex_g] [] [].
Definition ex_a1 := mk_header [11] [2] 11 120 None.
Definition ex_a2 := mk_header [12] [11] 12 130 None.
Definition ex_b1 := mk_header [21] [2] 11 120 None.
Definition ex_x2 := mk_header [66] [21] 12 140 None.
Definition ex_blocks := [ex_g; ex_r; ex_a1; ex_a2; ex_b1; ex_x2].
Definition ex_rank (h : bytes) : nat := match h with [x] => N.to_nat x | _ => 100%nat end.
Definition ex_add (l : list header) (n : node) : node := fold_left (fun n b => add_block b n) l n.
Definition ex_up (n : node) : node := match advance 1 10 5 ex_ok ex_news n with Some n => n | None => n end.
Definition ex_vote (h k : bytes) (n : node) : node := handle_vote (fun v => addr_eqb (v_sig v) [7]) (fun _ => true) (fun _ => false) (mk_vote h k [7]) n.
(** two chains: the second has votes, but its last block is not valid *)
Definition ex_one : node := ex_up (ex_vote [21] [101] (ex_vote [21] [101] (ex_vote [21] [102] (ex_up (ex_add [ex_a2; ex_x2; ex_a1; ex_b1] ex_start))))).
Definition ex_two : node := ex_up (ex_vote [21] [101] (ex_up (ex_vote [21] [102] (ex_up (ex_add [ex_a1; ex_a2] (ex_up (ex_add [ex_b1; ex_x2] ex_start))))))).
Lemma ex_nc : no_collision (fun b => In b ex_blocks).
Proof. intros a b. cbn. intros [<-|[<-|[<-|[<-|[<-|[<-|[]]]]]]] [<-|[<-|[<-|[<-|[<-|[<-|[]]]]]]] E; try reflexivity; discriminate E. Qed.
Lemma ex_acy : no_cycle (fun b => In b ex_blocks) ex_rank.
Proof. intros b. cbn. intros [<-|[<-|[<-|[<-|[<-|[<-|[]]]]]]]; cbn; lia. Qed.
Definition ex_epoch := epoch 1 10 5 ex_ok (fun v => addr_eqb (v_sig v) [7]) (fun b => In b ex_blocks) ex_r [ex_g].
Lemma ex_up_epoch n : ex_epoch n -> ex_epoch (ex_up n).
Proof. intros E. unfold ex_up. destruct (advance 1 10 5 ex_ok ex_news n) as [n'|] eqn:A; [|exact E]. eapply epoch_update; eauto. Qed.
Lemma ex_add_epoch l : forall n, ex_epoch n -> Forall (fun b => In b ex_blocks /\ (h_height b = h_height ex_r + 1 -> h_prev b = h_hash ex_r)) l -> ex_epoch (ex_add l n).
Proof. induction l as [|b l IH]; intros n E F; [exact E|]. inversion F as [|? ? (I & FI) F']; subst. apply (IH (add_block b n)); auto. now apply epoch_block. Qed.
Lemma ex_vote_epoch h k n : ex_epoch n -> ex_epoch (ex_vote h k n).
Proof. intros E. apply epoch_vote. exact E. Qed.
Lemma ex_start_epoch : ex_epoch ex_start.
Proof. apply epoch_start; [repeat constructor; cbn; tauto|cbn; tauto]. Qed.
Ltac ex_blocks_tac := repeat (apply Forall_cons; [split; [cbn; tauto|cbn; intros E; (reflexivity || discriminate E)]|]); apply Forall_nil.
Example ex_epochs : ex_epoch ex_one /\ ex_epoch ex_two.
Proof.
  split.
  - unfold ex_one. apply ex_up_epoch, ex_vote_epoch, ex_vote_epoch, ex_vote_epoch, ex_up_epoch. apply ex_add_epoch; [exact ex_start_epoch|ex_blocks_tac].
  - unfold ex_two. apply ex_up_epoch, ex_vote_epoch, ex_up_epoch, ex_vote_epoch, ex_up_epoch. apply ex_add_epoch; [|ex_blocks_tac]. apply ex_up_epoch. apply ex_add_epoch; [exact ex_start_epoch|ex_blocks_tac].
Qed.

(** ** C38 *)
(** The update of the node always comes to an end, and then the best chain is applied: of all chains on top of the root that are known, verified and valid, the one
    with the most votes, then the longest, then the one with the smaller hash. *)
Theorem C38_best cd mh mv ok vote_ok U rank root older w n : no_collision U -> no_cycle U rank -> epoch cd mh mv ok vote_ok U root older n ->
  exists n' l, advance cd mh mv ok w n = Some n' /\ n_main n' = rev l ++ root :: older /\ n_root n' = root /\
    (all_votes (known n') < 2 ^ 32 -> l = [] /\ (forall l', ~ candidate ok root (known n') l') \/ best_chain ok root (known n') l).
Proof.
  intros NC ACY E. destruct (epoch_base _ _ _ _ _ _ _ _ _ E) as (UR & OLD). destruct (epoch_inv cd mh mv ok U rank root older NC ACY UR OLD vote_ok n E) as (F & l0 & A).
  destruct (advance_ok cd mh mv ok U rank root older NC ACY UR OLD w n l0 F A) as (n' & l & E' & F' & A' & B). exists n', l. split; auto. split; [apply A'|]. split; [apply F'|]. exact B.
Qed.
Print Assumptions C38_best.
Lemma known_nodup cd mh mv ok vote_ok U rank root older w n n' : no_collision U -> no_cycle U rank -> epoch cd mh mv ok vote_ok U root older n ->
  advance cd mh mv ok w n = Some n' -> NoDup (map (fun x => h_hash (fst (fst x))) (known n')).
Proof.
  intros NC ACY E AD. destruct (epoch_base _ _ _ _ _ _ _ _ _ E) as (UR & OLD).
  destruct (epoch_inv cd mh mv ok U rank root older NC ACY UR OLD vote_ok n' (epoch_update _ _ _ _ _ _ _ _ w n n' E AD)) as ([_ T _ _] & _).
  unfold known. rewrite map_map. cbn. apply (t_nodup _ _ _ _ T).
Qed.
Lemma votes_of_in k b p v : NoDup (map (fun x : header * bool * N => h_hash (fst (fst x))) k) -> In (b, p, v) k -> votes_of k b = v.
Proof.
  induction k as [|((x, q), u) k IH]; cbn [map votes_of fst]; intros N I; [contradiction|]. inversion N as [|? ? NI N']; subst. destruct I as [[= -> -> ->]|I]; [now rewrite addr_eqb_refl|].
  destruct (addr_eqb_spec (h_hash x) (h_hash b)) as [E|]; auto. exfalso. apply NI. rewrite E. apply in_map_iff. exists (b, p, v). auto.
Qed.
Lemma same_total k k' ok root l : NoDup (map (fun x => h_hash (fst (fst x))) k) -> NoDup (map (fun x => h_hash (fst (fst x))) k') -> same_verified k k' -> candidate ok root k l ->
  total_votes k l = total_votes k' l.
Proof.
  intros N N' S (_ & _ & V). unfold total_votes. induction V as [|b l ((v & I) & _) _ IH]; cbn [fold_right]; auto. rewrite IH. f_equal. rewrite (votes_of_in k b true v N I).
  symmetry. apply (votes_of_in k' b true v N'). now apply S.
Qed.
Lemma same_candidate k k' ok root l : same_verified k k' -> candidate ok root k l -> candidate ok root k' l.
Proof. intros S (NE & F & V). split; auto. split; auto. eapply Forall_impl; [|exact V]. intros b ((v & I) & O). split; auto. exists v. now apply S. Qed.
Lemma beats_asym root k l l' : beats root k l l' -> beats root k l' l -> False.
Proof.
  unfold beats. cbv zeta. intros [A|(A & [A'|(A' & A'')])] [B|(B & [B'|(B' & B'')])]; try lia. rewrite (tc_opp bytescmp_total), B'' in A''. discriminate.
Qed.
(** Two nodes with the same root that know the same verified blocks and the same votes for them end up with the same chain, in whatever order and in whatever rounds they
    learned about them, and whatever else they know. *)
Theorem C38_order_partial cd mh mv ok vote_ok U rank root older older' w w' n1 n2 n1' n2' : no_collision U -> no_cycle U rank ->
  epoch cd mh mv ok vote_ok U root older n1 -> epoch cd mh mv ok vote_ok U root older' n2 ->
  advance cd mh mv ok w n1 = Some n1' -> advance cd mh mv ok w' n2 = Some n2' ->
  same_verified (known n1') (known n2') -> all_votes (known n1') < 2 ^ 32 -> all_votes (known n2') < 2 ^ 32 ->
  exists l, n_main n1' = rev l ++ root :: older /\ n_main n2' = rev l ++ root :: older'.
Proof.
  intros NC ACY E1 E2 A1 A2 S V1 V2.
  pose proof (known_nodup _ _ _ _ _ _ _ _ _ _ _ _ NC ACY E1 A1) as N1. pose proof (known_nodup _ _ _ _ _ _ _ _ _ _ _ _ NC ACY E2 A2) as N2.
  destruct (C38_best cd mh mv ok vote_ok U rank root older w n1 NC ACY E1) as (m1 & l1 & X1 & M1 & _ & B1). rewrite A1 in X1. injection X1 as <-. specialize (B1 V1).
  destruct (C38_best cd mh mv ok vote_ok U rank root older' w' n2 NC ACY E2) as (m2 & l2 & X2 & M2 & _ & B2). rewrite A2 in X2. injection X2 as <-. specialize (B2 V2).
  assert (S' : same_verified (known n2') (known n1')) by (intros b v; symmetry; apply S).
  enough (l1 = l2) as -> by eauto.
  destruct B1 as [(-> & NO1)|(C1 & B1)], B2 as [(-> & NO2)|(C2 & B2)]; auto.
  - exfalso. apply (NO1 l2). eapply same_candidate; eauto.
  - exfalso. apply (NO2 l1). eapply same_candidate; eauto.
  - pose proof (same_candidate _ _ _ _ _ S C1) as C1'. pose proof (same_candidate _ _ _ _ _ S' C2) as C2'.
    destruct (B1 l2 C2') as [|X]; [congruence|]. destruct (B2 l1 C1') as [|Y]; [congruence|]. exfalso. apply (beats_asym root (known n1') l1 l2 X). unfold beats in Y |- *. cbv zeta in *.
    rewrite (same_total _ _ ok root l1 N1 N2 S C1), (same_total _ _ ok root l2 N1 N2 S C2'). exact Y.
Qed.
Print Assumptions C38_order_partial.
(** the two nodes of the example: other orders, other rounds, votes that come before the blocks are verified; both follow the valid part of the chain with the votes *)
Example C38_case : map h_hash (n_main ex_one) = [[21]; [2]; [1]] /\ n_main ex_two = n_main ex_one /\ map f_hash (n_forks ex_one) <> map f_hash (n_forks ex_two) /\
  map f_votes (n_forks ex_one) = [0; 2; 0; 0] /\ map f_invalid (n_forks ex_one) = [false; false; false; true].
Proof. split; [|split; [|split; [|split]]]; try (vm_compute; reflexivity). vm_compute. intros E. discriminate E. Qed.
Example C38_case_hyp : exists n1' n2', advance 1 10 5 ex_ok ex_news ex_one = Some n1' /\ advance 1 10 5 ex_ok ex_news ex_two = Some n2' /\
  same_verified (known n1') (known n2') /\ all_votes (known n1') < 2 ^ 32 /\ all_votes (known n2') < 2 ^ 32.
Proof.
  eexists. eexists. split; [vm_compute; reflexivity|]. split; [vm_compute; reflexivity|]. split; [|split; vm_compute; reflexivity].
  intros b v. vm_compute. intuition congruence.
Qed.
(** When there are forks from other roots, which the root's siblings on disk can be, the comparison is not transitive any more and the order of arrival decides: the
    same three blocks on three roots, the same votes, two orders, two peaks. *)
Definition rf_a := mk_header [3] [1] 10 111 (Some [102]).
Definition rf_b := mk_header [4] [1] 10 112 None.
Definition rf_c := mk_header [5] [1] 10 109 None.
Definition rf_xa := mk_header [13] [3] 11 120 None.
Definition rf_xb := mk_header [14] [4] 11 121 None.
Definition rf_xc := mk_header [15] [5] 11 122 None.
Definition rf_blocks := [ex_g; ex_r; rf_a; rf_b; rf_c; rf_xa; rf_xb; rf_xc].
Definition rf_up (n : node) : node := match update 1 10 5 ex_ok ex_news n with Some n => n | None => n end.
Definition rf_play (l : list header) : node := rf_up (ex_vote [13] [101] (ex_vote [13] [102] (ex_vote [15] [101] (rf_up (ex_add ([rf_a; rf_b; rf_c] ++ l) ex_start))))).
Definition rf_run (l : list header) := run 1 10 5 ex_ok (fun v => addr_eqb (v_sig v) [7]) (fun b => In b l).
Lemma rf_up_run l n : rf_run l n -> rf_run l (rf_up n).
Proof. intros E. unfold rf_up. destruct (update 1 10 5 ex_ok ex_news n) as [n'|] eqn:A; [|exact E]. eapply run_update; eauto. Qed.
Lemma rf_add_run l bs : forall n, rf_run l n -> Forall (fun b => In b l) bs -> rf_run l (ex_add bs n).
Proof. induction bs as [|b bs IH]; intros n E F; [exact E|]. inversion F; subst. apply (IH (add_block b n)); auto. now apply run_block. Qed.
Lemma rf_vote_run l h k n : rf_run l n -> rf_run l (ex_vote h k n).
Proof. intros E. apply run_vote. exact E. Qed.
Lemma rf_start_run l : In ex_r l -> In ex_g l -> rf_run l ex_start.
Proof. intros. apply run_start; auto. Qed.
Ltac rf_blocks_tac := repeat (apply Forall_cons; [cbn; tauto|]); apply Forall_nil.
Lemma rf_play_run l : Forall (fun b => In b rf_blocks) l -> rf_run rf_blocks (rf_play l).
Proof.
  intros F. unfold rf_play. apply rf_up_run, rf_vote_run, rf_vote_run, rf_vote_run, rf_up_run. apply rf_add_run; [apply rf_start_run; cbn; tauto|]. apply Forall_app. split; auto. rf_blocks_tac.
Qed.
Theorem C38_order_refuted : exists n1 n2, rf_run rf_blocks n1 /\ rf_run rf_blocks n2 /\ no_collision (fun b => In b rf_blocks) /\ no_cycle (fun b => In b rf_blocks) ex_rank /\
  same_verified (known n1) (known n2) /\ Forall (fun f => f_proof f = true /\ f_invalid f = false) (n_forks n1 ++ n_forks n2) /\ state_hash n1 <> state_hash n2.
Proof.
  exists (rf_play [rf_xa; rf_xb; rf_xc]), (rf_play [rf_xb; rf_xc; rf_xa]). split; [apply rf_play_run; rf_blocks_tac|]. split; [apply rf_play_run; rf_blocks_tac|].
  split; [intros a b; cbn; intros [<-|[<-|[<-|[<-|[<-|[<-|[<-|[<-|[]]]]]]]]] [<-|[<-|[<-|[<-|[<-|[<-|[<-|[<-|[]]]]]]]]] E; try reflexivity; discriminate E|].
  split; [intros b; cbn; intros [<-|[<-|[<-|[<-|[<-|[<-|[<-|[<-|[]]]]]]]]]; cbn; lia|].
  split; [intros b v; vm_compute; intuition congruence|]. split; [vm_compute; repeat constructor|]. vm_compute. intros E. discriminate E.
Qed.
Print Assumptions C38_order_refuted.

(** ** C39 *)
(** Whatever happened to the node: the number of votes of a block is the number of distinct validators of the block that voted for it, each with a valid vote that was
    passed on; it is at most the size of the validator set. *)
Theorem C39_votes cd mh mv ok vote_ok U n f : mv < 2 ^ 32 -> run cd mh mv ok vote_ok U n -> In f (n_forks n) ->
  exists ks, NoDup ks /\ f_votes f = N.of_nat (length ks) /\ f_votes f <= mv /\
    forall k, In k ks -> (exists v, In v (n_published n) /\ v_hash v = f_hash f /\ v_key v = k /\ vote_ok v = true) /\
                         exists d a, (cd <= d < cd + mh)%nat /\ back U d (f_block f) a /\ h_farmer a = Some k.
Proof.
  intros SM R I. pose proof (run_good cd mh mv ok vote_ok U SM n R) as G. destruct (gd_votes _ _ _ _ _ _ G f I) as [C1 C2 C3 C4 C5 C6]. exists (flagged (f_validators f)).
  assert (LE : (length (flagged (f_validators f)) <= length (f_validators f))%nat).
  { unfold flagged. rewrite map_length. generalize (f_validators f) as l. clear. induction l as [|x l IH]; cbn; auto. destruct (snd x); cbn; lia. }
  split; [now apply flagged_nodup|]. split; [auto|]. split; [lia|]. intros k K. split; [auto|]. apply C5. now apply flagged_incl.
Qed.
Print Assumptions C39_votes.
(** While the root stays the same, exactly the votes that were passed on are counted, and none is passed on twice. *)
Theorem C39_exact cd mh mv ok vote_ok U root older n f : mv < 2 ^ 32 -> epoch cd mh mv ok vote_ok U root older n -> In f (n_forks n) ->
  NoDup (map (fun v => (v_hash v, v_key v)) (n_published n)) /\
  f_votes f = N.of_nat (length (filter (fun v => addr_eqb (v_hash v) (f_hash f)) (n_published n))).
Proof.
  intros SM E I. destruct (epoch_exact cd mh mv ok vote_ok U SM root older n E) as (G & [X1 X2]). split; auto. destruct (gd_votes _ _ _ _ _ _ G f I) as [C1 C2 C3 C4 C5 C6]. rewrite C3. f_equal.
  set (pub := filter _ _). assert (P : Permutation (flagged (f_validators f)) (map v_key pub)); [|rewrite (Permutation_length P); apply map_length].
  apply NoDup_Permutation; [now apply flagged_nodup| |].
  - unfold pub. clear - X2. revert X2. generalize (n_published n) as l. induction l as [|v l IH]; cbn [map filter]; intros N; [constructor|]. inversion N as [|? ? NI N']; subst.
    destruct (addr_eqb_spec (v_hash v) (f_hash f)) as [EV|]; auto. cbn. constructor; auto. intros IN. apply in_map_iff in IN as (w & EW & IW). apply filter_In in IW as (IW & HW).
    destruct (addr_eqb_spec (v_hash w) (f_hash f)) as [HW'|]; [|discriminate]. apply NI. apply in_map_iff. exists w. split; auto. congruence.
  - intros k. split.
    + intros K. destruct (C4 k K) as (v & IV & HV & <- & _). apply in_map. apply filter_In. split; auto. rewrite HV. apply addr_eqb_refl.
    + intros K. apply in_map_iff in K as (v & <- & IV). apply filter_In in IV as (IV & HV). destruct (addr_eqb_spec (v_hash v) (f_hash f)) as [EV|]; [|discriminate].
      destruct (X1 v IV) as (g & IG & EG & KG). assert (g = f) as <-; auto. eapply nodup_inj; eauto; [apply (gd_nodup _ _ _ _ _ _ G)|congruence].
Qed.
Print Assumptions C39_exact.
(** The validators of a block: the farmers of the blocks from [cd] blocks before it on, going back until there are [mv] of them, or [mh] blocks were looked at, or no
    earlier block is known. *)
Theorem C39_validators cd mh mv n b : (0 < mh)%nat -> 0 < mv -> mv < 2 ^ 32 -> let ks := get_validators cd mh mv n b in
  exists l, lineage n b l /\ let cs := skipn cd (b :: l) in
    (length cs <= mh)%nat /\ (forall k, In k ks <-> exists x, In x cs /\ h_farmer x = Some k) /\ NoDup ks /\ N.of_nat (length ks) <= mv /\
    (N.of_nat (length ks) = mv \/ length cs = mh \/ get_header n (h_prev (last l b)) = None).
Proof. intros H1 H2 H3. exact (validators_exact cd mh mv (fun _ => true) (fun _ => True) H3 n b H1 H2). Qed.
Print Assumptions C39_validators.
Example C39_case : ex_epoch ex_one /\ map f_hash (n_forks ex_one) = [[11]; [21]; [12]; [66]] /\ map f_votes (n_forks ex_one) = [0; 2; 0; 0] /\ length (n_published ex_one) = 2%nat /\
  get_validators 1 10 5 ex_one ex_b1 = [[101]; [102]].
Proof. split; [apply ex_epochs|]. vm_compute. auto. Qed.

(** ** C66 *)
Lemma commit_line_facts peak delay may l : forall n, n_main (commit_line peak delay may l n) = n_main n /\
  (n_root (commit_line peak delay may l n) = n_root n \/ exists b, In b l /\ n_root (commit_line peak delay may l n) = b /\ h_height b + delay <= h_height peak).
Proof.
  induction l as [|b l IH]; intros n; cbn; auto. destruct (_ && _) eqn:E; [|auto]. apply andb_true_iff in E as (E & _). apply N.leb_le in E.
  destruct (IH (commit b n)) as (M & R). split; [exact M|]. right. destruct R as [R|(c & I & R & L)]; [exists b; auto|exists c; auto].
Qed.
(** As long as no block claims to follow the root directly without doing so, update() makes only blocks final that are part of the chain it applied and deep enough in
    it, and it undoes no final block. *)
Theorem C66_final_partial cd mh mv ok vote_ok U rank root older w n : no_collision U -> no_cycle U rank -> epoch cd mh mv ok vote_ok U root older n ->
  exists n' l, update cd mh mv ok w n = Some n' /\ n_main n' = rev l ++ root :: older /\
    (n_root n' = root \/ In (n_root n') l /\ h_height (n_root n') + w_delay w <= h_height (last l root)).
Proof.
  intros NC ACY E. destruct (epoch_base _ _ _ _ _ _ _ _ _ E) as (UR & OLD). destruct (epoch_inv cd mh mv ok U rank root older NC ACY UR OLD vote_ok n E) as (F0 & l0 & A0).
  destruct (advance_ok cd mh mv ok U rank root older NC ACY UR OLD w n l0 F0 A0) as (m & l & EM & F & A & _). unfold update. rewrite EM. pose proof (ap_main _ _ _ _ A) as M. pose proof F as [RT T _ _].
  destruct l as [|b0 l' _] using rev_ind.
  - rewrite M. cbn [rev app]. rewrite RT, N.ltb_irrefl. exists m, []. auto.
  - rewrite M, rev_app_distr. cbn [rev app]. rewrite RT.
    destruct (ap_forks _ _ _ _ A b0) as (f & IF & BF & PF & VF & AF); [apply in_or_app; cbn; auto|]. pose proof (l_above _ _ _ _ _ (t_local _ _ _ _ T f IF)) as AB. unfold f_height in AB. rewrite BF in AB.
    replace (h_height root <? h_height b0) with true by (symmetry; apply N.ltb_lt; exact AB).
    assert (FF : find_fork (n_forks m) (h_hash b0) = Some f) by (rewrite <- BF; apply (find_fork_in _ _ (t_nodup _ _ _ _ T) IF)). rewrite FF.
    destruct (fork_line_ok ok U rank root NC ACY UR m f F IF AF) as (line & IL & ->).
    assert (EL : map f_block line = l' ++ [b0]).
    { destruct (line_facts _ _ _ _ _ _ T IL) as (_ & _ & CH & _). apply (chained_unique ok U root NC UR).
      - eapply line_apart; [exact T|exact IL]. - eapply applied_apart; [exact T|exact A]. - exact CH. - apply follows_chained. apply A.
      - erewrite line_last by (exact T || exact IL); rewrite last_snoc. exact BF. }
    rewrite EL. destruct (commit_line_facts b0 (w_delay w) (w_may w) (l' ++ [b0]) m) as (CM & CR). eexists. exists (l' ++ [b0]). split; [reflexivity|]. rewrite CM, M. split; [reflexivity|].
    rewrite last_snoc. destruct CR as [CR|(c & IC & CR & LC)]; [left; congruence|right; rewrite CR; auto].
Qed.
Print Assumptions C66_final_partial.
Definition ex_news2 : news := mk_news (fun _ => true) (fun _ => Some true) (fun _ => true) (fun _ => false) (fun _ => false) (fun _ => true) 1 (fun _ => true).
Example C66_case : option_map (fun n => (n_root n, n_main n)) (update 1 10 5 ex_ok ex_news2 (ex_add [ex_a2; ex_a1] ex_start)) = Some (ex_a1, [ex_a2; ex_a1; ex_r; ex_g]).
Proof. vm_compute. reflexivity. Qed.
(** A block that claims to be next to the root but was built on the peak makes the peak final at once, although the block is rejected: nothing compares the height
    with the one of the block before until the block is applied. *)
Definition rf_x := mk_header [23] [12] 11 140 None.
Theorem C66_final_refuted : exists n n', rf_run (rf_x :: ex_blocks) n /\
  no_collision (fun b => In b (rf_x :: ex_blocks)) /\ no_cycle (fun b => In b (rf_x :: ex_blocks)) ex_rank /\
  update 1 10 5 ex_ok ex_news (add_block rf_x n) = Some n' /\ n_main n' = n_main n /\ n_root n = ex_r /\ n_root n' = ex_a2 /\ hd_error (n_main n') = Some ex_a2 /\ w_delay ex_news = 1000.
Proof.
  exists (rf_up (ex_add [ex_a1; ex_a2] ex_start)). eexists. split; [apply rf_up_run; apply rf_add_run; [apply rf_start_run; cbn; tauto|rf_blocks_tac]|].
  split; [intros a b; cbn; intros [<-|[<-|[<-|[<-|[<-|[<-|[<-|[]]]]]]]] [<-|[<-|[<-|[<-|[<-|[<-|[<-|[]]]]]]]] E; try reflexivity; discriminate E|].
  split; [intros b; cbn; intros [<-|[<-|[<-|[<-|[<-|[<-|[<-|[]]]]]]]]; cbn; lia|].
  split; [vm_compute; reflexivity|]. vm_compute. auto.
Qed.
Print Assumptions C66_final_refuted.
