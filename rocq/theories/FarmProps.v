(** Voting and making blocks: the properties *)
Require Import List Arith NArith ZArith Bool Lia Sorting.Sorted.
From Verif Require Import OrdLib BytesLib EngineModel EngineUpper ForkModel ForkSpec ForkProofs FarmModel FarmSpec FarmProofs.
Import List ListNotations.
Open Scope N_scope.

(** ** A small network for the examples *)
(** 32 bytes that are ordered like the first x *)
Definition toy_hash (c : bytes) (xs : list N) : bytes := firstn 32 (xs ++ c ++ repeat 0 32%nat).
Lemma toy_length c xs : length (toy_hash c xs) = 32%nat.
Proof. unfold toy_hash. rewrite firstn_length, !app_length, repeat_length. lia. Qed.
(** the proof of a block: the challenge is the height, the proof the second byte of the hash *)
Definition toy_proof (challenge x : N) : proof := mk_proof [challenge] [x] [1] [].
Definition toy_proofs (b : header) : list proof := [toy_proof (h_height b) (nth 1 (h_hash b) 0)].
Definition toy_phash (b : header) : bytes := match toy_proofs b with p :: _ => proof_hash toy_hash p | [] => [] end.
Definition toy_clock (i : nat) : Z := Z.of_nat i.
Lemma toy_clock_grows i j : (i <= j)%nat -> (toy_clock i <= toy_clock j)%Z.
Proof. unfold toy_clock. lia. Qed.
Definition toy_history := history 1 10 10 (fun _ => true) (fun _ => true) 100 2 3 toy_hash toy_proofs toy_phash h_height toy_clock.
Definition toy_news : news := mk_news (fun _ => true) (fun _ => Some true) (fun _ => true) (fun _ => false) (fun _ => false) (fun _ => true) 100 (fun _ => false).
(** the farmer at address 9 is ours; all proofs are good; it signs blocks if there is a next challenge *)
Definition toy_outside (next : header -> option bytes) : outside :=
  mk_outside (fun m => addr_eqb m [9]) (fun _ => true) 100 toy_news true (fun _ => true) (fun _ => true) next (fun m => Some (200 :: hd [] (map p_xs (m_proof m)), 50)).
Definition toy_round : event := Round (toy_outside (fun _ => None)).
Definition toy_root : header := mk_header [10; 0] [9] 0 0 (Some [1]).
(** blocks: number, proof, parent *)
Definition toy_block (n x : N) (prev : bytes) (height : N) : header := mk_header [n; x] prev height (10 * height) (Some [2]).
(** our farmer shows up with a proof for some challenge *)
Definition toy_farmer : event := NewProof (mk_response (toy_proof 77 5) 1 [9]).
Definition toy_start : state := start toy_root [] 0.

(** ** C89 *)
(** As long as a node runs, its votes for two blocks with the same parent are more than one block interval apart. *)
Theorem C89_votes_do_not_split_partial commit_delay max_history max_validators ok vote_ok interval max_proofs challenge_delay calc_hash h_proofs h_phash h_vdf clock root older t l s :
  (forall i j, (i <= j)%nat -> (clock i <= clock j)%Z) ->
  history commit_delay max_history max_validators ok vote_ok interval max_proofs challenge_delay calc_hash h_proofs h_phash h_vdf clock l (start root older t) = Some s ->
  siblings_apart interval (s_cast s).
Proof.
  intros CL H. destruct (start_ok interval max_proofs calc_hash clock root older t) as (A & _).
  destruct (history_ok commit_delay max_history max_validators ok vote_ok interval max_proofs challenge_delay calc_hash h_proofs h_phash h_vdf clock CL l _ s A H) as (A' & _).
  apply (vo_apart _ _ _ (ao_votes _ _ _ _ _ A')).
Qed.
Print Assumptions C89_votes_do_not_split_partial.
(** A node votes for a block, and after a while for another one with the same parent. *)
Definition toy_again : list event :=
  [toy_farmer; NewBlock (toy_block 30 5 [10; 0] 1); toy_round; NewBlock (toy_block 20 4 [10; 0] 1); Time 200; toy_round].
Example C89_case : exists s, toy_history toy_again toy_start = Some s /\ map (fun b => (c_block b, c_parent b)) (s_cast s) = [([20; 4], [10; 0]); ([30; 5], [10; 0])].
Proof. eexists. split; [vm_compute; reflexivity|]. vm_compute. reflexivity. Qed.
(** Without the time in between it does not vote again. *)
Example C89_case_short : exists s, toy_history (filter (fun e => match e with Time _ => false | _ => true end) toy_again) toy_start = Some s /\ map c_block (s_cast s) = [[30; 5]]
  /\ state_hash (s_node s) = [20; 4].
Proof. eexists. split; [vm_compute; reflexivity|]. split; vm_compute; reflexivity. Qed.
Lemma toy_apart l s : toy_history l toy_start = Some s -> siblings_apart 100 (s_cast s).
Proof. exact (C89_votes_do_not_split_partial _ _ _ _ _ _ _ _ _ _ _ _ _ _ _ _ l s toy_clock_grows). Qed.
(** The same is not true of blocks at the same height: with another parent, the next vote follows at once. *)
Definition toy_two_chains : list event :=
  [toy_farmer; NewBlock (toy_block 30 5 [10; 0] 1); toy_round; NewBlock (toy_block 31 5 [30; 5] 2); toy_round;
   NewBlock (toy_block 20 4 [10; 0] 1); NewBlock (toy_block 21 4 [20; 4] 2); toy_round].
Theorem C89_same_height_refuted : exists s, toy_history toy_two_chains toy_start = Some s /\ ~ heights_apart 100 (s_cast s) /\ siblings_apart 100 (s_cast s).
Proof.
  destruct (toy_history toy_two_chains toy_start) as [s|] eqn:E; [|vm_compute in E; discriminate]. exists s. split; auto. split.
  - vm_compute in E. injection E as <-. intros H.
    match type of H with heights_apart _ (s_cast ?s) => let c := eval vm_compute in (s_cast s) in change (s_cast s) with c in H end.
    match type of H with heights_apart _ [?x; ?y; ?z] => specialize (H y x ltac:(exists [], [], [z]; reflexivity) eq_refl) end.
    vm_compute in H. specialize (H ltac:(intros X'; discriminate X')). discriminate H.
  - now apply (toy_apart toy_two_chains).
Qed.
Print Assumptions C89_same_height_refuted.

(** Nor is it true of a node that is restarted: it has forgotten what it voted for. *)
Definition toy_run (l1 l2 : list event) : option state :=
  match toy_history l1 toy_start with Some s => toy_history l2 (restart toy_root [] s) | None => None end.
Definition toy_vote (n x : N) : list event := [toy_farmer; NewBlock (toy_block n x [10; 0] 1); toy_round].
Theorem C89_restart_refuted : exists s, toy_run (toy_vote 30 5) (toy_vote 20 4) = Some s /\ ~ siblings_apart 100 (s_cast s).
Proof.
  destruct (toy_run (toy_vote 30 5) (toy_vote 20 4)) as [s|] eqn:E; [|vm_compute in E; discriminate]. exists s. split; auto.
  vm_compute in E. injection E as <-. intros H.
  match type of H with siblings_apart _ (s_cast ?s) => let c := eval vm_compute in (s_cast s) in change (s_cast s) with c in H end.
  match type of H with siblings_apart _ [?x; ?y] => specialize (H y x ltac:(exists [], [], []; reflexivity) eq_refl) end.
  vm_compute in H. specialize (H ltac:(intros X'; discriminate X')). discriminate H.
Qed.
Print Assumptions C89_restart_refuted.

(** ** C90 *)
(** If the farmers answer, every vote is for a block from the best proof that is known for the challenge, or it replaces an earlier vote for another block with the same parent. *)
Theorem C90_votes_are_for_the_best_proof_partial commit_delay max_history max_validators ok vote_ok interval max_proofs challenge_delay calc_hash h_proofs h_phash h_vdf clock root older t l s :
  (forall i j, (i <= j)%nat -> (clock i <= clock j)%Z) -> (forall o k, In (Round o) l -> o_signs o k = true) ->
  history commit_delay max_history max_validators ok vote_ok interval max_proofs challenge_delay calc_hash h_proofs h_phash h_vdf clock l (start root older t) = Some s ->
  forall b, In b (s_cast s) -> for_best b \/ replaces_vote b (s_cast s).
Proof.
  intros CL SG H. destruct (start_ok interval max_proofs calc_hash clock root older t) as (A & B).
  destruct (history_ok commit_delay max_history max_validators ok vote_ok interval max_proofs challenge_delay calc_hash h_proofs h_phash h_vdf clock CL l _ s A H) as (_ & B').
  apply (ba_why _ (B' SG B)).
Qed.
Print Assumptions C90_votes_are_for_the_best_proof_partial.
Example C90_case : (forall o k, In (Round o) toy_again -> o_signs o k = true) /\
  exists s, toy_history toy_again toy_start = Some s /\ map (fun b => (c_block b, nth 0 (c_proof b) 0, map (hd 0) (c_known b))) (s_cast s) = [([20; 4], 4, [4; 5]); ([30; 5], 5, [5])].
Proof.
  split.
  - intros o k. cbn. intros [X|[X|[X|[X|[X|[X|[]]]]]]]; try discriminate X; injection X as <-; reflexivity.
  - eexists. split; [vm_compute; reflexivity|]. vm_compute. reflexivity.
Qed.
(** A vote that replaces another one may be for a block from a worse proof: the block on the longer chain. *)
Definition toy_weaker : list event :=
  [toy_farmer; NewBlock (toy_block 30 5 [10; 0] 1); toy_round; NewBlock (toy_block 20 6 [10; 0] 1); NewBlock (toy_block 21 4 [20; 6] 2); Time 200; toy_round].
Theorem C90_weaker_proof_refuted : exists s b, toy_history toy_weaker toy_start = Some s /\ In b (s_cast s) /\ ~ for_best b.
Proof.
  destruct (toy_history toy_weaker toy_start) as [s|] eqn:E; [|vm_compute in E; discriminate]. vm_compute in E. injection E as <-. 
  match goal with |- exists s b, Some ?s0 = _ /\ _ => exists s0; let c := eval vm_compute in (s_cast s0) in match c with ?x :: _ => exists x end end.
  split; [reflexivity|]. split; [now left|]. intros (_ & H). specialize (H (toy_hash [1] [5])). destruct H as [H|H]; [vm_compute; auto|discriminate H|]. vm_compute in H. discriminate H.
Qed.
Print Assumptions C90_weaker_proof_refuted.

(** ** C91 *)
(** As long as a node runs, it makes no two blocks from the same proof. *)
Theorem C91_one_block_per_proof_partial commit_delay max_history max_validators ok vote_ok interval max_proofs challenge_delay calc_hash h_proofs h_phash h_vdf clock root older t l s :
  (forall i j, (i <= j)%nat -> (clock i <= clock j)%Z) ->
  history commit_delay max_history max_validators ok vote_ok interval max_proofs challenge_delay calc_hash h_proofs h_phash h_vdf clock l (start root older t) = Some s ->
  one_block_per_proof (s_made s).
Proof.
  intros CL H. destruct (start_ok interval max_proofs calc_hash clock root older t) as (A & _).
  destruct (history_ok commit_delay max_history max_validators ok vote_ok interval max_proofs challenge_delay calc_hash h_proofs h_phash h_vdf clock CL l _ s A H) as (A' & _).
  apply (mo_once _ _ _ (ao_made _ _ _ _ _ A')).
Qed.
Print Assumptions C91_one_block_per_proof_partial.
(** A node with three proofs for the next height makes one block with the best two, and no second one in the next round; when a proof of another farmer that is better arrives, none. *)
Definition toy_make : event := Round (toy_outside (fun b => Some [h_height b + 1])).
Definition toy_offer (x mac : N) : event := NewProof (mk_response (toy_proof 1 x) 1 [mac]).
Definition toy_farming : list event := [toy_offer 8 9; toy_offer 6 8; toy_offer 5 9; toy_offer 8 7; toy_make; toy_make; toy_offer 3 8; toy_make].
Example C91_case : exists s, toy_history toy_farming toy_start = Some s /\
  map (fun m => (m_prev m, m_height m, map p_xs (m_proof m), map (hd 0) (m_known m))) (s_made s) = [([10; 0], 1, [[5]; [6]], [5; 6; 8])].
Proof. eexists. split; [vm_compute; reflexivity|]. vm_compute. reflexivity. Qed.
(** A node that is restarted makes another block from the same proof. *)
Theorem C91_restart_refuted : exists s, toy_run [toy_offer 5 9; toy_make] [toy_offer 5 9; toy_make] = Some s /\ ~ one_block_per_proof (s_made s).
Proof.
  destruct (toy_run [toy_offer 5 9; toy_make] [toy_offer 5 9; toy_make]) as [s|] eqn:E; [|vm_compute in E; discriminate]. exists s. split; auto.
  vm_compute in E. injection E as <-. intros H. vm_compute in H. inversion H as [|? ? N _]; subst. apply N. left. reflexivity.
Qed.
Print Assumptions C91_restart_refuted.

(** ** C92 *)
(** The blocks a node makes carry the best proofs it has for the challenge, *)
Theorem C92_own_blocks_have_the_best_proofs commit_delay max_history max_validators ok vote_ok interval max_proofs challenge_delay calc_hash h_proofs h_phash h_vdf clock root older t l s :
  (forall i j, (i <= j)%nat -> (clock i <= clock j)%Z) -> (0 < max_proofs)%nat ->
  history commit_delay max_history max_validators ok vote_ok interval max_proofs challenge_delay calc_hash h_proofs h_phash h_vdf clock l (start root older t) = Some s ->
  Forall (best_proofs (proof_hash calc_hash) max_proofs) (s_made s).
Proof.
  intros CL P H. destruct (start_ok interval max_proofs calc_hash clock root older t) as (A & _).
  destruct (history_ok commit_delay max_history max_validators ok vote_ok interval max_proofs challenge_delay calc_hash h_proofs h_phash h_vdf clock CL l _ s A H) as (A' & _).
  apply (mo_best _ _ _ (ao_made _ _ _ _ _ A') P).
Qed.
Print Assumptions C92_own_blocks_have_the_best_proofs.
(** and every node finds their list of proofs to be in order. *)
Theorem C92_own_blocks_pass_the_check commit_delay max_history max_validators ok vote_ok interval max_proofs challenge_delay calc_hash h_proofs h_phash h_vdf clock root older t l s :
  (forall i j, (i <= j)%nat -> (clock i <= clock j)%Z) -> (0 < max_proofs)%nat -> (forall c xs, length (calc_hash c xs) = 32%nat) ->
  history commit_delay max_history max_validators ok vote_ok interval max_proofs challenge_delay calc_hash h_proofs h_phash h_vdf clock l (start root older t) = Some s ->
  forall m, In m (s_made s) -> check_proofs max_proofs calc_hash (m_proof m) (m_proof_hash m) = true.
Proof.
  intros CL P LEN H m I. apply own_check; auto. pose proof (C92_own_blocks_have_the_best_proofs _ _ _ _ _ _ _ _ _ _ _ _ _ _ _ _ _ _ CL P H) as F. rewrite Forall_forall in F. auto.
Qed.
Print Assumptions C92_own_blocks_pass_the_check.
(** A list that is out of order, has a proof twice, or has the wrong hash, is not accepted. *)
Example C92_case : let ok l h := check_proofs 2 toy_hash (map (toy_proof 1) l) (toy_hash [1] [h]) in
  (ok [5; 6] 5, ok [6; 5] 6, ok [5; 5] 5, ok [5; 6] 6, ok [] 5, ok [5; 6; 7] 5) = (true, false, false, false, false, false).
Proof. vm_compute. reflexivity. Qed.
(** Whatever order proofs come in and whoever sends them: the proofs for a challenge are the same, and so is the best one. *)
Theorem C92_order_of_arrival calc_hash (l l' : list ((bytes -> bool) * response)) (root : header) older t challenge :
  (forall p, In p (map (fun e => r_proof (snd e)) l) <-> In p (map (fun e => r_proof (snd e)) l')) ->
  let adds l := fold_left (fun s e => add_proof calc_hash (fst e) (r_proof (snd e)) (r_vdf (snd e)) (r_mac (snd e)) s) l (start root older t) in
  map d_hash (proofs_of (adds l) challenge) = map d_hash (proofs_of (adds l') challenge) /\
  option_map d_hash (find_best_proof (adds l) challenge) = option_map d_hash (find_best_proof (adds l') challenge) /\
  (forall e, In e l -> p_challenge (r_proof (snd e)) = challenge -> exists d, find_best_proof (adds l) challenge = Some d /\
     (d_hash d = proof_hash calc_hash (r_proof (snd e)) \/ hash_lt (d_hash d) (proof_hash calc_hash (r_proof (snd e))))).
Proof.
  intros E. cbv zeta. assert (S0 : store_ok calc_hash (start root older t)) by (intros c; split; constructor).
  destruct (adds_hashes 0 calc_hash (fun _ => 0%Z) l _ S0) as (A & B). destruct (adds_hashes 0 calc_hash (fun _ => 0%Z) l' _ S0) as (A' & B').
  set (s := fold_left _ l _) in *. set (s' := fold_left _ l' _) in *. clearbody s s'. destruct (A challenge) as (S & _). destruct (A' challenge) as (S' & _).
  assert (EQ : map d_hash (proofs_of s challenge) = map d_hash (proofs_of s' challenge)).
  { apply sorted_unique; [now apply sorted_hashes|now apply sorted_hashes|]. intros h. rewrite B, B'. split; (intros [[]|(e & I & C & ->)]; right).
    - apply (in_map (fun e => r_proof (snd e))), E, in_map_iff in I as (e' & EE & I). exists e'. rewrite EE. auto.
    - apply (in_map (fun e => r_proof (snd e))), E, in_map_iff in I as (e' & EE & I). exists e'. rewrite EE. auto. }
  split; auto. split.
  - unfold find_best_proof. destruct (proofs_of s challenge), (proofs_of s' challenge); cbn in *; congruence.
  - intros e I C. assert (J : In (proof_hash calc_hash (r_proof (snd e))) (map d_hash (proofs_of s challenge))) by (apply B; right; exists e; auto).
    unfold find_best_proof. destruct (proofs_of s challenge) as [|d ds]; [contradiction|]. exists d. split; auto. cbn in J. destruct J as [J|J]; auto. right.
    inversion S as [|? ? _ F]; subst. rewrite Forall_forall in F. apply in_map_iff in J as (x & EX & J). rewrite <- EX. now apply F.
Qed.
Print Assumptions C92_order_of_arrival.
