(** Proofs about voting and making blocks: what is voted for and used has been verified *)
Require Import List Arith NArith ZArith Bool Lia Sorting.Sorted.
From Verif Require Import OrdLib BytesLib EngineModel EngineUpper ForkModel ForkSpec ForkProofs ForkVotes FarmModel FarmSpec FarmProofs.
Import List ListNotations.
Open Scope N_scope.

Lemma sort_in l x : In x (sort_proofs l) <-> In x l.
Proof.
  unfold sort_proofs. assert (G : forall acc, In x (fold_left (fun acc d => insert_proof d acc) l acc) <-> In x l \/ In x acc).
  { induction l as [|d l IH]; intros acc; cbn [fold_left]; [cbn; intuition|]. rewrite IH, insert_in. cbn. intuition. }
  rewrite G. cbn. intuition.
Qed.

Section CLEAN.
  Variables (commit_delay max_history : nat) (max_validators : N).
  Variables (ok : header -> bool) (vote_ok : vote -> bool).
  Variables (gap : Z) (max_proofs : nat) (challenge_delay : N).
  Variable calc_hash : bytes -> list N -> bytes.
  Variables (h_proofs : header -> list proof) (h_phash : header -> bytes) (h_vdf : header -> N).
  Variable clock : nat -> Z.
  Variables (U : header -> Prop) (V : proof -> Prop) (own : bytes -> Prop).
  Hypothesis SMALL : max_validators < 2 ^ 32.
  Notation round := (round commit_delay max_history max_validators ok gap max_proofs challenge_delay calc_hash h_proofs h_phash h_vdf clock).
  Notation happens := (happens commit_delay max_history max_validators ok vote_ok gap max_proofs challenge_delay calc_hash h_proofs h_phash h_vdf clock).
  Notation history := (history commit_delay max_history max_validators ok vote_ok gap max_proofs challenge_delay calc_hash h_proofs h_phash h_vdf clock).
  Notation good := (good commit_delay max_history max_validators vote_ok U).

  (** the vote is by an own farmer, who made one of the blocks before the one that is voted for *)
  Definition cast_ok (b : ballot) : Prop :=
    own (c_key b) /\ exists x, U x /\ h_hash x = c_block b /\ h_prev x = c_parent b /\ h_height x = c_height b /\
      exists d a, (commit_delay <= d < commit_delay + max_history)%nat /\ back U d x a /\ h_farmer a = Some (c_key b).
  Record clean (s : state) : Prop := mk_clean {
    cl_node : good (s_node s);
    cl_proofs : forall c d, In d (proofs_of s c) -> V (d_proof d);
    cl_keys : forall k m, assoc k (s_keys s) = Some m -> own k;
    cl_cast : Forall cast_ok (s_cast s);
    cl_made : Forall (fun m => Forall V (m_proof m)) (s_made s) }.
  (** what the outside must be like *)
  Record outside_ok (o : outside) : Prop := mk_outside_ok {
    oo_verify : forall r, o_verify o r = true -> V (r_proof r);
    oo_own : forall r, o_verify o r = true -> o_pipe o (r_mac r) = true -> own (p_key (r_proof r));
    oo_nobody : o_pipe o (repeat 0 8%nat) = false;
    oo_check : forall b p, U b -> w_check (o_news o) b = Some true -> hd_error (h_proofs b) = Some p -> V p;
    oo_sign : forall m h w k, o_sign o m = Some (h, w) -> U (mk_header h (m_prev m) (m_height m) w k) }.

  Lemma clean_same s s' : s_node s' = s_node s -> s_proofs s' = s_proofs s -> s_keys s' = s_keys s -> s_cast s' = s_cast s -> s_made s' = s_made s -> clean s -> clean s'.
  Proof. intros A B C D E [H1 H2 H3 H4 H5]. constructor; unfold proofs_of; rewrite ?A, ?B, ?C, ?D, ?E; auto. Qed.
  Lemma clean_node s n : good n -> clean s -> clean (set_node s n).
  Proof. intros G [H1 H2 H3 H4 H5]. constructor; auto. Qed.
  Lemma add_proof_clean pipe p v mac s : V p -> (pipe mac = true -> own (p_key p)) -> clean s -> clean (add_proof calc_hash pipe p v mac s).
  Proof.
    intros VP OP C. unfold add_proof. cbv zeta. destruct (existsb _ _); auto. destruct C as [H1 H2 H3 H4 H5]. constructor; auto.
    - intros c d. rewrite proofs_put. destruct (addr_eqb (p_challenge p) c); [|apply H2]. rewrite sort_in. intros I. apply in_app_or in I as [I|[<-|[]]]; [eapply H2; eauto|exact VP].
    - cbn [s_keys]. destruct (pipe mac) eqn:P; auto. intros k m. rewrite assoc_put. destruct (addr_eqb_spec (p_key p) k) as [<-|]; auto. apply H3.
  Qed.
  Lemma add_proof_node pipe p v mac s : s_node (add_proof calc_hash pipe p v mac s) = s_node s.
  Proof. unfold add_proof. cbv zeta. now destruct (existsb _ _). Qed.
  Lemma verify_proofs_clean o s : outside_ok o -> clean s -> clean (verify_proofs gap challenge_delay calc_hash clock (o_pipe o) (o_verify o) (o_vdf o) s).
  Proof.
    intros OO C. unfold verify_proofs, tick. cbv zeta. cbn [s_queue set_clock]. set (todo := filter _ (filter _ _)). set (again := filter _ (filter _ _)). clearbody todo again.
    assert (C0 : clean (set_clock s (S (s_clock s)))) by (apply (clean_same s); auto). revert C0. generalize (set_clock s (S (s_clock s))) as s0. clear C s.
    induction todo as [|e todo IH]; cbn [fold_left]; intros s C; [apply (clean_same s); auto|]. apply IH. destruct (o_verify o (fst e)) eqn:VE; auto.
    apply add_proof_clean; auto; [now apply (oo_verify _ OO)|now apply (oo_own _ OO)].
  Qed.
  Lemma verify_proofs_node o s : s_node (verify_proofs gap challenge_delay calc_hash clock (o_pipe o) (o_verify o) (o_vdf o) s) = s_node s.
  Proof.
    unfold verify_proofs, tick. cbv zeta. cbn [s_queue set_clock set_queue s_node]. set (todo := filter _ (filter _ _)). clearbody todo.
    transitivity (s_node (set_clock s (S (s_clock s)))); [|reflexivity]. generalize (set_clock s (S (s_clock s))) as s0. clear s.
    induction todo as [|e todo IH]; cbn [fold_left]; intros s; auto. rewrite IH. destruct (o_verify o (fst e)); auto using add_proof_node.
  Qed.
  Lemma add_block_proofs_clean o n s : outside_ok o -> good n -> 
    s_node s = verify_block_proofs commit_delay max_history max_validators (w_connected (o_news o)) (w_check (o_news o)) n ->
    clean s -> clean (add_block_proofs calc_hash h_proofs h_vdf (o_pipe o) (n_forks n) s).
  Proof.
    intros OO G E C. unfold add_block_proofs. 
    assert (FR : forall f, In f (n_forks (s_node s)) -> f_proof f && negb (existsb (fun g => addr_eqb (f_hash g) (f_hash f) && f_proof g) (n_forks n)) = true ->
      forall p, hd_error (h_proofs (f_block f)) = Some p -> V p).
    { rewrite E. unfold verify_block_proofs. cbn [set_forks n_forks]. set (fs := fold_left _ _ _).
      pose proof (connect_fold (n_root n) (w_connected (o_news o)) (map f_hash (n_forks n)) _ (gd_nodup _ _ _ _ _ _ G)) as K. fold fs in K. clearbody fs.
      intros f I FP p HP. apply andb_true_iff in FP as (FP & NB). apply in_map_iff in I as (f1 & <- & I1).
      assert (exists f0, In f0 (n_forks n) /\ keeps_votes f0 f1) as (f0 & I0 & (K1 & K2 & _)).
      { clear - K I1. induction K as [|a b la lb R K IH]; [contradiction|]. destruct I1 as [<-|I1]; [exists a; cbn; auto|]. destruct (IH I1) as (x & ? & ?). exists x. cbn. auto. }
      assert (UB : U (f_block f1)) by (rewrite K1; apply (gd_in _ _ _ _ _ _ G); auto).
      unfold verify_task in FP, NB, HP. destruct (negb (f_connected f1) || f_invalid f1 || f_proof f1) eqn:B.
      - exfalso. apply negb_true_iff in NB. assert (existsb (fun g => addr_eqb (f_hash g) (f_hash f1) && f_proof g) (n_forks n) = true); [|congruence].
        apply existsb_exists. exists f0. split; auto. unfold f_hash. rewrite K1, addr_eqb_refl. cbn. congruence.
      - destruct (w_check (o_news o) (f_block f1)) as [[]|] eqn:CH; cbn [f_block f_proof] in *.
        + apply (oo_check _ OO (f_block f1)); auto.
        + apply orb_false_iff in B as (_ & B). congruence.
        + apply orb_false_iff in B as (_ & B). congruence. }
    revert FR. generalize (n_forks (s_node s)) as L. intros L. revert s E C. assert (IHL : forall s, clean s ->
      (forall f, In f L -> f_proof f && negb (existsb (fun g => addr_eqb (f_hash g) (f_hash f) && f_proof g) (n_forks n)) = true -> forall p, hd_error (h_proofs (f_block f)) = Some p -> V p) ->
      clean (fold_left (fun s f => let fresh := f_proof f && negb (existsb (fun g => addr_eqb (f_hash g) (f_hash f) && f_proof g) (n_forks n)) in
        match fresh, h_proofs (f_block f) with true, p :: _ => add_proof calc_hash (o_pipe o) p (h_vdf (f_block f)) (repeat 0 8%nat) s | _, _ => s end) L s)).
    { induction L as [|f L IH]; cbn [fold_left]; intros s C FR; auto. apply IH; [|intros; eapply FR; eauto; now right]. cbv zeta. specialize (FR f ltac:(now left)). destruct (f_proof f && _); auto.
      destruct (h_proofs (f_block f)) as [|p ps]; auto. apply add_proof_clean; auto. rewrite (oo_nobody _ OO). discriminate. }
    intros s _ C. apply IHL; auto.
  Qed.
  Lemma add_block_proofs_node pipe before s : s_node (add_block_proofs calc_hash h_proofs h_vdf pipe before s) = s_node s.
  Proof.
    unfold add_block_proofs. generalize (n_forks (s_node s)) as L. intros L. revert s. induction L as [|f L IH]; cbn [fold_left]; intros s; auto. rewrite IH. cbv zeta. destruct (f_proof f && _); auto.
    destruct (h_proofs (f_block f)); auto using add_proof_node.
  Qed.
  Lemma purge_clean top s : clean s -> clean (purge h_vdf top s).
  Proof.
    intros [H1 H2 H3 H4 H5]. constructor; auto. intros c d. unfold purge. set (gone := filter (fun e => fst e <=? h_vdf top) (s_challenges s)). clearbody gone. cbv zeta. unfold proofs_of. cbn [s_proofs].
    assert (D : assoc c (fold_left (fun m e => drop (snd e) m) gone (s_proofs s)) = None \/ assoc c (fold_left (fun m e => drop (snd e) m) gone (s_proofs s)) = assoc c (s_proofs s)).
    { generalize (s_proofs s) as m. induction gone as [|e g IH]; intros m; cbn [fold_left]; auto. destruct (IH (drop (snd e) m)) as [->|E]; auto.
      rewrite E, assoc_drop. destruct (addr_eqb (snd e) c); auto. }
    destruct D as [->| ->]; [intros []|]. apply (H2 c d).
  Qed.

  (** ** Votes *)
  Notation vote_with := (vote_with h_proofs h_phash clock).
  Notation vote_for_block := (vote_for_block h_proofs h_phash clock).
  Lemma vote_for_block_clean signs f s : In f (n_forks (s_node s)) -> clean s -> clean (vote_for_block signs f s).
  Proof.
    intros I C. pose proof (cl_node _ C) as G. pose proof (gd_votes _ _ _ _ _ _ G f I) as CT. pose proof (gd_in _ _ _ _ _ _ G) as (_ & _ & _ & UF). specialize (UF f I).
    pose proof (c_back _ _ _ _ _ _ _ CT) as B. clear CT G I. unfold FarmModel.vote_for_block. revert s C. generalize dependent (map fst (f_validators f)). intros ks B.
    induction ks as [|k ks IH]; cbn [fold_left]; intros s C; auto. apply IH; [intros; apply B; now right|]. clear IH. specialize (B k ltac:(now left)).
    unfold FarmModel.vote_with. destruct (assoc k (s_keys s)) as [m|] eqn:A; auto. unfold tick. cbv zeta. pose proof (cl_keys _ C _ _ A) as OK. destruct C as [H1 H2 H3 H4 H5].
    destruct (signs k); (constructor; [exact H1|exact H2|exact H3| |exact H5]); [|exact H4]. cbn. constructor; auto. split; auto. exists (f_block f). cbn. repeat (split; auto).
  Qed.
  Lemma vote_again_clean signs now s f : In f (n_forks (s_node s)) -> clean s -> clean (vote_again gap h_proofs h_phash clock signs now s f).
  Proof.
    intros I C. unfold vote_again. destruct (assoc _ _) as [[h t]|]; auto. destruct (addr_eqb _ _); auto. destruct (_ <? _)%Z; auto. now apply vote_for_block_clean.
  Qed.
  Lemma again_fold_clean signs now line : forall s, (forall f, In f line -> In f (n_forks (s_node s))) -> clean s -> clean (fold_left (vote_again gap h_proofs h_phash clock signs now) line s).
  Proof.
    induction line as [|f line IH]; cbn [fold_left]; intros s I C; auto. destruct (vote_again_keeps gap h_proofs h_phash clock signs now s f) as (EN & _). apply IH.
    - intros g J. rewrite EN. apply I. now right.
    - apply vote_again_clean; auto. apply I. now left.
  Qed.
  Lemma vote_peak_clean signs peak f s : (forall g, f = Some g -> In g (n_forks (s_node s))) -> clean s -> clean (vote_peak h_proofs h_phash clock signs peak f s).
  Proof.
    intros P C. unfold vote_peak. destruct f as [f|]; auto. destruct (_ =? 0); auto. destruct (assoc _ _); auto. destruct (is_best _ _ _ _); auto. apply vote_for_block_clean; auto.
  Qed.

  (** ** Blocks *)
  Lemma try_block_clean o prev c s : outside_ok o -> clean s -> clean (try_block max_proofs (o_pipe o) (o_points o) (o_sign o) prev c s).
  Proof.
    intros OO C. unfold try_block. destruct c as [c|]; auto. destruct (find_best_proof s c) as [d|]; auto. destruct (o_pipe o (d_mac d)); auto. destruct (assoc _ _); auto. destruct prev as [b|]; auto.
    destruct (o_points o b); auto. unfold make_block. destruct (proofs_of s c) as [|e l] eqn:E; auto. cbv zeta. set (m := mk_draft _ _ _ _ _ _). destruct (o_sign o m) as [[h w]|] eqn:SG; auto.
    destruct C as [H1 H2 H3 H4 H5]. constructor; auto.
    - cbn [s_node]. apply add_good; auto. now apply (oo_sign _ OO).
    - cbn [s_made]. constructor; auto. unfold m. cbn [m_proof]. apply Forall_forall. intros p I. apply in_map_iff in I as (x & <- & I). apply (H2 c). rewrite E. 
      rewrite <- (firstn_skipn max_proofs (e :: l)). apply in_or_app. auto.
  Qed.
  Lemma line_in n f line : match f with Some g => In g (n_forks n) | None => True end -> fork_line n f = Some line -> forall x, In x line -> In x (n_forks n).
  Proof.
    intros IF E. unfold fork_line in E. destruct f as [g|].
    - eapply walk_line_in; [| |exact E]; cbn; auto. contradiction.
    - destruct (addr_eqb _ _); [injection E as <-; contradiction|]. eapply walk_line_in; [| |exact E]; [|contradiction].
      destruct (find_fork (n_forks n) (state_hash n)) as [g|] eqn:F; auto. apply (find_fork_some _ _ _ F).
  Qed.
  Lemma round_clean o s s' : outside_ok o -> clean s -> round o s = Some s' -> clean s'.
  Proof.
    intros OO C E. unfold FarmModel.round in E. cbv zeta in E.
    pose proof (verify_proofs_clean o s OO C) as C1. set (v := verify_proofs _ _ _ _ _ _ _ s) in *. clearbody v. clear C s.
    set (n1 := verify_block_proofs _ _ _ _ _ (s_node v)) in *.
    assert (C2 : clean (set_node v n1)). { apply clean_node; auto. unfold n1. apply verify_good; auto. apply C1. }
    pose proof (add_block_proofs_clean o (s_node v) (set_node v n1) OO (cl_node _ C1) eq_refl C2) as C3. clear C2.
    set (b := add_block_proofs _ _ _ _ _ _) in *. assert (C4 : clean (set_node b (s_node v))) by (apply clean_node; auto; apply C1). clearbody b. clear C3.
    set (u := set_node b (s_node v)) in *. destruct (update _ _ _ _ _ _) as [n|] eqn:UP; [|discriminate].
    assert (GN : good n). { eapply update_good; [exact SMALL| |exact UP]. apply C4. }
    clear UP. assert (C5 : clean (if addr_eqb (h_hash (n_root n)) (h_hash (n_root (s_node u))) then set_node u n else purge h_vdf (n_root n) (set_node u n))).
    { destruct (addr_eqb _ _); [|apply purge_clean]; now apply clean_node. }
    assert (NN : s_node (if addr_eqb (h_hash (n_root n)) (h_hash (n_root (s_node u))) then set_node u n else purge h_vdf (n_root n) (set_node u n)) = n) by now destruct (addr_eqb _ _).
    set (p := if addr_eqb (h_hash (n_root n)) (h_hash (n_root (s_node u))) then set_node u n else purge h_vdf (n_root n) (set_node u n)) in *. clearbody p. clear C4.
    destruct (get_header n (state_hash n)) as [peak|]; [|injection E as <-; auto]. unfold tick in E.
    destruct (fork_line n _) as [line|] eqn:L; [|discriminate]. destruct (o_synced o); injection E as <-; [|apply (clean_same p); auto].
    apply try_block_clean; auto. assert (C6 : clean (set_clock p (S (s_clock p)))) by (apply (clean_same p); auto).
    assert (C7 : clean (vote_peak h_proofs h_phash clock (o_signs o) peak (find_fork (n_forks n) (h_hash peak)) (set_clock p (S (s_clock p))))).
    { apply vote_peak_clean; auto. cbn [set_clock s_node]. rewrite NN. intros g F. apply (find_fork_some _ _ _ F). }
    pose proof (vote_peak_keeps h_proofs h_phash clock (o_signs o) peak (find_fork (n_forks n) (h_hash peak)) (set_clock p (S (s_clock p)))) as (VN & _).
    set (q := vote_peak _ _ _ _ _ _ _) in *. clearbody q.
    assert (C8 : clean (fold_left (vote_again gap h_proofs h_phash clock (o_signs o) (clock (s_clock p))) line q)).
    { apply again_fold_clean; auto. rewrite VN. cbn [set_clock s_node]. rewrite NN. eapply line_in; [|exact L]. destruct (find_fork (n_forks n) (h_hash peak)) as [g|] eqn:F; auto. apply (find_fork_some _ _ _ F). }
    destruct (_ =? 0); auto. now apply try_block_clean.
  Qed.
  Definition event_ok (e : event) : Prop := match e with NewBlock b => U b | Round o => outside_ok o | _ => True end.
  Lemma happens_clean e s s' : event_ok e -> clean s -> happens e s = Some s' -> clean s'.
  Proof.
    intros EO C. destruct e as [b|late v|r|o|t]; cbn [FarmModel.happens]; [intros [= <-]|intros [= <-]|intros [= <-]|intros E; eapply round_clean; eauto|intros [= <-]].
    - apply clean_node; auto. apply add_good; auto. apply C.
    - unfold receive_vote. apply clean_node; auto. apply handle_good; auto. apply C.
    - apply (clean_same s); auto.
    - apply (clean_same s); auto.
  Qed.
  Lemma history_clean l : forall s s', (forall e, In e l -> event_ok e) -> clean s -> history l s = Some s' -> clean s'.
  Proof.
    induction l as [|e l IH]; cbn [FarmModel.history]; intros s s' EO C E; [injection E as <-; auto|]. destruct (happens e s) as [x|] eqn:H; [|discriminate].
    eapply IH; [| |exact E]; [intros; apply EO; now right|]. eapply happens_clean; eauto. apply EO. now left.
  Qed.
  Lemma start_clean root older t : U root -> Forall U older -> clean (start root older t).
  Proof.
    intros UR UO. constructor; cbn; auto; try discriminate; [|contradiction]. constructor; cbn; auto; [|constructor|contradiction]. split; [auto|]. cbn. split; [auto|]. split; auto. contradiction.
  Qed.
End CLEAN.

(** ** While syncing *)
Section SYNC.
  Variables (commit_delay max_history : nat) (max_validators : N) (ok : header -> bool) (gap : Z) (max_proofs : nat) (challenge_delay : N).
  Variable calc_hash : bytes -> list N -> bytes.
  Variables (h_proofs : header -> list proof) (h_phash : header -> bytes) (h_vdf : header -> N) (clock : nat -> Z).
  Definition quiet (s s' : state) : Prop := s_cast s' = s_cast s /\ s_made s' = s_made s.
  Lemma add_proof_quiet pipe p v mac s0 s : quiet s0 s -> quiet s0 (add_proof calc_hash pipe p v mac s).
  Proof. intros (A & B). unfold add_proof. cbv zeta. destruct (existsb _ _); split; auto. Qed.
  Lemma round_quiet o s s' : o_synced o = false -> round commit_delay max_history max_validators ok gap max_proofs challenge_delay calc_hash h_proofs h_phash h_vdf clock o s = Some s' -> quiet s s'.
  Proof.
    intros SY E. unfold round in E. cbv zeta in E. rewrite SY in E.
    assert (Q1 : quiet s (verify_proofs gap challenge_delay calc_hash clock (o_pipe o) (o_verify o) (o_vdf o) s)).
    { unfold verify_proofs, tick. cbv zeta. set (todo := filter _ (filter _ _)). clearbody todo. assert (Q0 : quiet s (set_clock s (S (s_clock s)))) by (split; auto). revert Q0. generalize (set_clock s (S (s_clock s))).
      intros s0 Q0. cut (quiet s (fold_left (fun s e => if o_verify o (fst e) then add_proof calc_hash (o_pipe o) (r_proof (fst e)) (r_vdf (fst e)) (r_mac (fst e)) s else s) todo s0)); [intros (A & B); split; auto|].
      revert s0 Q0. induction todo as [|e todo IH]; cbn [fold_left]; intros s0 Q0; auto. apply IH. destruct (o_verify o (fst e)); auto using add_proof_quiet. }
    set (v := verify_proofs _ _ _ _ _ _ _ s) in *. clearbody v. set (n1 := verify_block_proofs _ _ _ _ _ _) in *. clearbody n1.
    assert (Q2 : quiet s (add_block_proofs calc_hash h_proofs h_vdf (o_pipe o) (n_forks (s_node v)) (set_node v n1))).
    { unfold add_block_proofs. cbn [set_node s_node]. assert (Q0 : quiet s (set_node v n1)) by (destruct Q1; split; auto). revert Q0. generalize (set_node v n1) as s0. generalize (n_forks n1) as L. 
      induction L as [|f L IH]; cbn [fold_left]; intros s0 Q0; auto. apply IH. cbv zeta. destruct (_ && _); auto. destruct (h_proofs _); auto using add_proof_quiet. }
    set (b := add_block_proofs _ _ _ _ _ _) in *. clearbody b. destruct (update _ _ _ _ _ _) as [n|]; [|discriminate].
    set (p := if addr_eqb _ _ then _ else _) in *. assert (Q3 : quiet s p) by (unfold p; destruct Q2; destruct (addr_eqb _ _); split; auto). clearbody p.
    destruct (get_header n (state_hash n)); [|injection E as <-; auto]. unfold tick in E. destruct (fork_line n _); [|discriminate]. injection E as <-. destruct Q3. split; auto.
  Qed.
End SYNC.
