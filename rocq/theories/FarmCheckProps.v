(** Who votes, what blocks are made from, and when: the properties *)
Require Import List Arith NArith ZArith Bool Lia Sorting.Sorted.
From Verif Require Import OrdLib BytesLib EngineModel EngineUpper ForkModel ForkSpec ForkProofs ForkVotes FarmModel FarmSpec FarmProofs FarmProps FarmCheck.
Import List ListNotations.
Open Scope N_scope.

(** ** What the rest of the world is like *)
(** [U]: a set of blocks with those the node started from, those that were sent to it and those it makes *)
Definition all_blocks (U : header -> Prop) (root : header) (older : list header) (l : list event) : Prop :=
  U root /\ Forall U older /\ (forall b, In (NewBlock b) l -> U b) /\
  forall o m h w k, In (Round o) l -> o_sign o m = Some (h, w) -> U (mk_header h (m_prev m) (m_height m) w k).
(** [V]: a set of proofs with those that pass the check, alone or as the first one in a block *)
Definition all_verified (V : proof -> Prop) (h_proofs : header -> list proof) (l : list event) : Prop :=
  forall o, In (Round o) l -> (forall r, o_verify o r = true -> V (r_proof r)) /\ (forall b p, w_check (o_news o) b = Some true -> hd_error (h_proofs b) = Some p -> V p).
(** [own]: a set of keys with those of proofs that pass the check and come from a farmer with an open connection; there is none at the address zero *)
Definition all_farmers (own : bytes -> Prop) (l : list event) : Prop :=
  forall o, In (Round o) l -> o_pipe o (repeat 0 8%nat) = false /\ forall r, o_verify o r = true -> o_pipe o (r_mac r) = true -> own (p_key (r_proof r)).

Lemma events_fine U V own h_proofs root older l : all_blocks U root older l -> all_verified V h_proofs l -> all_farmers own l ->
  forall e, In e l -> event_ok h_proofs U V own e.
Proof.
  intros (_ & _ & UN & US) AV AF [b|late v|r|o|t] I; cbn; auto. destruct (AV o I) as (V1 & V2). destruct (AF o I) as (F1 & F2). constructor; eauto.
Qed.

(** ** C93 *)
(** Every vote of a node is with the key of one of its own farmers, who made one of the blocks that decide who may vote: those at least [commit_delay] and less than
    [commit_delay + max_history] before the block that is voted for. *)
Theorem C93_votes_are_by_own_validators commit_delay max_history max_validators ok vote_ok interval max_proofs challenge_delay calc_hash h_proofs h_phash h_vdf clock U own root older t l s :
  max_validators < 2 ^ 32 -> all_blocks U root older l -> all_farmers own l ->
  history commit_delay max_history max_validators ok vote_ok interval max_proofs challenge_delay calc_hash h_proofs h_phash h_vdf clock l (start root older t) = Some s ->
  forall b, In b (s_cast s) ->
    own (c_key b) /\ exists x, U x /\ h_hash x = c_block b /\ h_prev x = c_parent b /\ h_height x = c_height b /\
      exists d a, (commit_delay <= d < commit_delay + max_history)%nat /\ back U d x a /\ h_farmer a = Some (c_key b).
Proof.
  intros SM AB AF H b I. assert (AV : all_verified (fun _ => True) h_proofs l) by (intros o _; split; auto).
  assert (C : clean commit_delay max_history max_validators vote_ok U (fun _ => True) own s).
  { eapply history_clean; [exact SM| | |exact H]; [eapply events_fine; eauto|]. destruct AB as (UR & UO & _). now apply start_clean. }
  pose proof (cl_cast _ _ _ _ _ _ _ _ C) as F. rewrite Forall_forall in F. exact (F b I).
Qed.
Print Assumptions C93_votes_are_by_own_validators.
(** A network where proofs up to 100 are good.  We farm with the key 1 and made the first block, so we may vote for the next one, and do; the block and the proof that are no
    good are not used. *)
Definition strict_outside (synced : bool) : outside :=
  mk_outside (fun m => addr_eqb m [9]) (fun r => (hd 0 (p_xs (r_proof r)) <? 100) && addr_eqb (p_key (r_proof r)) [1]) 100
    (mk_news (fun _ => true) (fun b => Some (nth 1 (h_hash b) 0 <? 100)) (fun _ => true) (fun _ => false) (fun _ => false) (fun _ => true) 100 (fun _ => false))
    synced (fun _ => true) (fun _ => true) (fun b => Some [h_height b + 1]) (fun m => Some (200 :: hd [] (map p_xs (m_proof m)), 50)).
Definition strict_events : list event :=
  [NewProof (mk_response (toy_proof 2 5) 1 [9]); NewProof (mk_response (toy_proof 2 105) 1 [9]); NewBlock (toy_block 30 4 [10; 0] 1); NewBlock (toy_block 20 104 [10; 0] 1);
   Round (strict_outside false); Round (strict_outside true)].
Definition strict_blocks (b : header) : Prop := In b [toy_root; toy_block 30 4 [10; 0] 1; toy_block 20 104 [10; 0] 1] \/ hd 0 (h_hash b) = 200.
Lemma strict_known : all_blocks strict_blocks toy_root [] strict_events.
Proof.
  repeat split; [left; cbn; auto|constructor| |].
  - intros b. cbn. intros [X|[X|[X|[X|[X|[X|[]]]]]]]; try discriminate X; injection X as <-; left; cbn; auto.
  - intros o m h w k. cbn. intros [X|[X|[X|[X|[X|[X|[]]]]]]]; try discriminate X; injection X as <-; intros [= <- _]; right; reflexivity.
Qed.
Lemma strict_rounds o : In (Round o) strict_events -> exists b, o = strict_outside b.
Proof. cbn. intros [X|[X|[X|[X|[X|[X|[]]]]]]]; try discriminate X; injection X as <-; eauto. Qed.
Lemma strict_farmers : all_farmers (fun k => k = [1]) strict_events.
Proof.
  intros o I. apply strict_rounds in I as (b & ->). split; [reflexivity|]. cbn. intros r E _. apply andb_true_iff in E as (_ & E). now destruct (addr_eqb_spec (p_key (r_proof r)) [1]).
Qed.
Example C93_case : 10 < 2 ^ 32 /\ all_blocks strict_blocks toy_root [] strict_events /\ all_farmers (fun k => k = [1]) strict_events /\
  exists s, toy_history strict_events toy_start = Some s /\ map (fun b => (c_key b, c_block b)) (s_cast s) = [([1], [30; 4])].
Proof. split; [reflexivity|]. split; [exact strict_known|]. split; [exact strict_farmers|]. eexists. split; [vm_compute; reflexivity|]. vm_compute. reflexivity. Qed.
(** somebody else's farmer does not vote here *)
Example C93_other : exists s, toy_history (tl strict_events) toy_start = Some s /\ map (fun b => (c_key b, c_block b)) (s_cast s) = [].
Proof. eexists. split; [vm_compute; reflexivity|]. vm_compute. reflexivity. Qed.

(** ** C94 *)
(** Every proof in a block that a node makes has passed the check, and nothing else is used. *)
Theorem C94_own_blocks_have_verified_proofs commit_delay max_history max_validators ok vote_ok interval max_proofs challenge_delay calc_hash h_proofs h_phash h_vdf clock V root older t l s :
  max_validators < 2 ^ 32 -> all_verified V h_proofs l -> (forall o, In (Round o) l -> o_pipe o (repeat 0 8%nat) = false) ->
  history commit_delay max_history max_validators ok vote_ok interval max_proofs challenge_delay calc_hash h_proofs h_phash h_vdf clock l (start root older t) = Some s ->
  forall m, In m (s_made s) -> Forall V (m_proof m).
Proof.
  intros SM AV NB H m I. assert (AB : all_blocks (fun _ => True) root older l) by (repeat split; auto; apply Forall_forall; auto).
  assert (AF : all_farmers (fun _ => True) l) by (intros o J; split; auto).
  assert (C : clean commit_delay max_history max_validators vote_ok (fun _ => True) V (fun _ => True) s).
  { eapply history_clean; [exact SM| | |exact H]; [eapply events_fine; eauto|]. destruct AB as (UR & UO & _). now apply start_clean. }
  pose proof (cl_made _ _ _ _ _ _ _ _ C) as F. rewrite Forall_forall in F. exact (F m I).
Qed.
Print Assumptions C94_own_blocks_have_verified_proofs.
Lemma strict_verified : all_verified (fun p => hd 0 (p_xs p) < 100) toy_proofs strict_events.
Proof.
  intros o I. apply strict_rounds in I as (b & ->). split; cbn.
  - intros r E. apply andb_true_iff in E as (E & _). now apply N.ltb_lt.
  - intros x p [= E] [= <-]. cbn. now apply N.ltb_lt.
Qed.
Example C94_case : all_verified (fun p => hd 0 (p_xs p) < 100) toy_proofs strict_events /\ (forall o, In (Round o) strict_events -> o_pipe o (repeat 0 8%nat) = false) /\
  exists s, toy_history strict_events toy_start = Some s /\ map (fun m => (m_prev m, m_height m, map p_xs (m_proof m))) (s_made s) = [([30; 4], 2, [[5]])].
Proof.
  split; [exact strict_verified|]. split; [intros o I; now apply strict_farmers|]. eexists. split; [vm_compute; reflexivity|]. vm_compute. reflexivity.
Qed.

(** A node that is not in sync neither votes nor makes blocks. *)
Theorem C94_nothing_while_syncing commit_delay max_history max_validators ok interval max_proofs challenge_delay calc_hash h_proofs h_phash h_vdf clock o s s' :
  o_synced o = false -> round commit_delay max_history max_validators ok interval max_proofs challenge_delay calc_hash h_proofs h_phash h_vdf clock o s = Some s' ->
  s_cast s' = s_cast s /\ s_made s' = s_made s.
Proof. apply round_quiet. Qed.
Print Assumptions C94_nothing_while_syncing.
(** the first of the two rounds above *)
Example C94_case_syncing : exists s s', toy_history (firstn 4 strict_events) toy_start = Some s /\ toy_history (firstn 5 strict_events) toy_start = Some s' /\ s_cast s' = [] /\ s_made s' = [] /\
  state_hash (s_node s') = [30; 4].
Proof. eexists. eexists. split; [vm_compute; reflexivity|]. split; [vm_compute; reflexivity|]. split; [vm_compute; reflexivity|]. split; vm_compute; reflexivity. Qed.
