(** Proofs about voting and making blocks *)
Require Import List Arith NArith ZArith Bool Lia Sorting.Sorted.
From Verif Require Import OrdLib BytesLib EngineModel EngineUpper ForkModel ForkSpec ForkProofs FarmModel FarmSpec.
Import List ListNotations.
Open Scope N_scope.

(** ** Association lists *)
Lemma assoc_drop {A} k x (l : list (bytes * A)) : assoc k (drop x l) = if addr_eqb x k then None else assoc k l.
Proof.
  unfold drop. induction l as [|[y v] l IH]; cbn [filter fst assoc]; [now destruct (addr_eqb x k)|]. destruct (addr_eqb_spec y x) as [->|N]; cbn [negb assoc].
  - rewrite IH. destruct (addr_eqb x k); auto.
  - rewrite IH. destruct (addr_eqb_spec y k) as [->|]; auto. destruct (addr_eqb_spec x k); congruence.
Qed.
Lemma assoc_put {A} k x v (l : list (bytes * A)) : assoc k (put x v l) = if addr_eqb x k then Some v else assoc k l.
Proof. unfold put. cbn. destruct (addr_eqb x k) eqn:E; auto. now rewrite assoc_drop, E. Qed.

(** ** Order of hashes *)
Lemma hash_lt_trans a b c : hash_lt a b -> hash_lt b c -> hash_lt a c.
Proof. unfold hash_lt. destruct bytescmp_total as [_ _ T]. apply T. Qed.
Lemma hash_lt_irrefl a : ~ hash_lt a a.
Proof. unfold hash_lt. destruct bytescmp_total as [R _ _]. assert (bytescmp a a = Eq) as -> by now apply R. discriminate. Qed.
Lemma hash_cases a b : hash_lt a b \/ a = b \/ hash_lt b a.
Proof.
  unfold hash_lt. destruct bytescmp_total as [R S T]. destruct (bytescmp a b) eqn:E; auto.
  - right. left. now apply R.
  - right. right. rewrite S, E. reflexivity.
Qed.

Definition d_lt (a b : pdata) : Prop := hash_lt (d_hash a) (d_hash b).
Lemma insert_in d l x : In x (insert_proof d l) <-> x = d \/ In x l.
Proof. induction l as [|y l IH]; cbn; [intuition|]. destruct (bytescmp (d_hash d) (d_hash y)); cbn; rewrite ?IH; intuition. Qed.
Lemma insert_keeps_order d l : StronglySorted d_lt l -> ~ In (d_hash d) (map d_hash l) -> StronglySorted d_lt (insert_proof d l).
Proof.
  induction l as [|y l IH]; cbn [insert_proof]; intros S N; [repeat constructor|]. inversion S as [|? ? S' F]; subst. cbn in N.
  destruct (hash_cases (d_hash d) (d_hash y)) as [L|[E|G]].
  - unfold hash_lt in L. rewrite L. constructor; auto. constructor; auto. eapply Forall_impl; [|exact F]. intros z Z. eapply hash_lt_trans; eauto.
  - exfalso. apply N. auto.
  - assert (NL : bytescmp (d_hash d) (d_hash y) <> Lt). { intros L. apply (hash_lt_irrefl (d_hash d)). eapply hash_lt_trans; eauto. }
    destruct (bytescmp (d_hash d) (d_hash y)) eqn:C; try congruence.
    all: constructor; [apply IH; auto|]; apply Forall_forall; intros z Z; apply insert_in in Z as [->|Z]; [exact G|]; rewrite Forall_forall in F; now apply F.
Qed.
Lemma insert_last d l : Forall (fun x => d_lt x d) l -> insert_proof d l = l ++ [d].
Proof.
  induction 1 as [|x l L F IH]; cbn; auto. assert (bytescmp (d_hash d) (d_hash x) <> Lt). { intros C. apply (hash_lt_irrefl (d_hash d)). eapply hash_lt_trans; eauto. }
  destruct (bytescmp (d_hash d) (d_hash x)); try congruence; now rewrite IH.
Qed.
Lemma sorted_snoc l d : StronglySorted d_lt (l ++ [d]) -> StronglySorted d_lt l /\ Forall (fun x => d_lt x d) l.
Proof.
  induction l as [|x l IH]; cbn; intros S; [split; constructor|]. inversion S as [|? ? S' F]; subst. destruct (IH S') as (A & B). apply Forall_app in F as (F1 & F2). inversion F2; subst.
  split; constructor; auto.
Qed.
Lemma sort_sorted l : StronglySorted d_lt l -> sort_proofs l = l.
Proof.
  unfold sort_proofs. induction l as [|d l IH] using rev_ind; intros S; auto. apply sorted_snoc in S as (A & B). rewrite fold_left_app. cbn. rewrite IH by auto. now apply insert_last.
Qed.
Lemma sort_snoc l d : StronglySorted d_lt l -> sort_proofs (l ++ [d]) = insert_proof d l.
Proof. intros S. unfold sort_proofs. rewrite fold_left_app. cbn. change (fold_left _ l []) with (sort_proofs l). now rewrite sort_sorted. Qed.

Lemma sorted_hashes l : StronglySorted d_lt l -> StronglySorted hash_lt (map d_hash l).
Proof. induction 1 as [|d l S IH F]; cbn; constructor; auto. apply Forall_forall. intros h I. apply in_map_iff in I as (x & <- & I). rewrite Forall_forall in F. now apply F. Qed.
(** a list in strict order is known by its elements *)
Lemma sorted_unique l : forall l', StronglySorted hash_lt l -> StronglySorted hash_lt l' -> (forall h, In h l <-> In h l') -> l = l'.
Proof.
  induction l as [|x l IH]; intros [|y l'] S S' E; auto.
  - exfalso. apply (E y). cbn. auto.
  - exfalso. apply (E x). cbn. auto.
  - inversion S as [|? ? S1 F]; subst. inversion S' as [|? ? S1' F']; subst. rewrite Forall_forall in F, F'.
    assert (x = y) as <-.
    { destruct (proj1 (E x) ltac:(cbn; auto)) as [->|I]; auto. destruct (proj2 (E y) ltac:(cbn; auto)) as [->|J]; auto. exfalso. apply (hash_lt_irrefl x). eapply hash_lt_trans; [apply F; exact J|apply F'; exact I]. }
    f_equal. apply IH; auto. intros h. split; intros I.
    + destruct (proj1 (E h) ltac:(cbn; auto)) as [->|]; auto. exfalso. apply (hash_lt_irrefl h). now apply F.
    + destruct (proj2 (E h) ltac:(cbn; auto)) as [->|]; auto. exfalso. apply (hash_lt_irrefl h). now apply F'.
Qed.

Section FARM.
  Variables (commit_delay max_history : nat) (max_validators : N).
  Variables (ok : header -> bool) (vote_ok : vote -> bool).
  Variables (gap : Z) (max_proofs : nat) (challenge_delay : N).
  Variable calc_hash : bytes -> list N -> bytes.
  Variables (h_proofs : header -> list proof) (h_phash : header -> bytes) (h_vdf : header -> N).
  Variable clock : nat -> Z.
  Notation phash := (proof_hash calc_hash).
  Notation round := (round commit_delay max_history max_validators ok gap max_proofs challenge_delay calc_hash h_proofs h_phash h_vdf clock).
  Notation happens := (happens commit_delay max_history max_validators ok vote_ok gap max_proofs challenge_delay calc_hash h_proofs h_phash h_vdf clock).
  Notation history := (history commit_delay max_history max_validators ok vote_ok gap max_proofs challenge_delay calc_hash h_proofs h_phash h_vdf clock).

  (** ** The proofs a node keeps *)
  Definition entry_ok (c : bytes) (d : pdata) : Prop := d_hash d = phash (d_proof d) /\ p_challenge (d_proof d) = c.
  Definition store_ok (s : state) : Prop := forall c, StronglySorted d_lt (proofs_of s c) /\ Forall (entry_ok c) (proofs_of s c).

  Lemma proofs_put s c c' l cs cr vo ks q t ca ma : proofs_of (mk_state (s_node s) cs (put c l (s_proofs s)) cr vo ks q t ca ma) c' = if addr_eqb c c' then l else proofs_of s c'.
  Proof. unfold proofs_of. cbn [s_proofs]. rewrite assoc_put. now destruct (addr_eqb c c'). Qed.
  Lemma add_proof_proofs pipe p v mac s : store_ok s ->
    forall c, proofs_of (add_proof calc_hash pipe p v mac s) c =
      if addr_eqb (p_challenge p) c && negb (existsb (fun e => addr_eqb (d_hash e) (phash p)) (proofs_of s c)) then insert_proof (mk_pdata (phash p) p mac) (proofs_of s c) else proofs_of s c.
  Proof.
    intros OK c. unfold add_proof. cbv zeta. destruct (existsb _ (proofs_of s (p_challenge p))) eqn:E.
    - destruct (addr_eqb_spec (p_challenge p) c) as [<-|]; cbn; [now rewrite E|auto].
    - rewrite proofs_put. destruct (addr_eqb_spec (p_challenge p) c) as [<-|]; cbn; auto. rewrite E. cbn. apply sort_snoc. apply OK.
  Qed.
  Lemma not_there (l : list pdata) h : existsb (fun e => addr_eqb (d_hash e) h) l = false -> ~ In h (map d_hash l).
  Proof.
    intros E I. apply in_map_iff in I as (x & <- & I). assert (existsb (fun e => addr_eqb (d_hash e) (d_hash x)) l = true); [|congruence].
    apply existsb_exists. exists x. split; auto. apply addr_eqb_refl.
  Qed.
  Lemma add_proof_ok pipe p v mac s : store_ok s -> store_ok (add_proof calc_hash pipe p v mac s).
  Proof.
    intros OK c. rewrite add_proof_proofs by auto. destruct (OK c) as (S & F). destruct (addr_eqb_spec (p_challenge p) c) as [<-|]; cbn; auto.
    destruct (existsb _ _) eqn:E; cbn; auto. split.
    - apply insert_keeps_order; auto. cbn. now apply not_there.
    - apply Forall_forall. intros x I. apply insert_in in I as [->|I]; [split; auto|]. rewrite Forall_forall in F. auto.
  Qed.
  Lemma add_proof_hashes pipe p v mac s : store_ok s -> forall c h,
    In h (map d_hash (proofs_of (add_proof calc_hash pipe p v mac s) c)) <-> In h (map d_hash (proofs_of s c)) \/ (p_challenge p = c /\ h = phash p).
  Proof.
    intros OK c h. rewrite add_proof_proofs by auto. destruct (addr_eqb_spec (p_challenge p) c) as [E|N]; cbn; [|intuition].
    destruct (existsb _ _) eqn:X; cbn.
    - split; auto. intros [I|(_ & ->)]; auto. apply existsb_exists in X as (d & I & X). destruct (addr_eqb_spec (d_hash d) (phash p)) as [<-|]; [|discriminate]. now apply in_map.
    - rewrite !in_map_iff. split.
      + intros (d & <- & I). apply insert_in in I as [->|I]; eauto.
      + intros [(d & <- & I)|(_ & ->)]; [exists d|exists (mk_pdata (phash p) p mac)]; split; auto; apply insert_in; auto.
  Qed.

  (** everything that is no proof stays *)
  Definition same_votes (s s' : state) : Prop := s_cast s' = s_cast s /\ s_voted s' = s_voted s /\ s_created s' = s_created s /\ s_made s' = s_made s /\ (s_clock s <= s_clock s')%nat.
  Lemma same_refl s : same_votes s s.
  Proof. repeat split; auto. Qed.
  Lemma same_trans a b c : same_votes a b -> same_votes b c -> same_votes a c.
  Proof. intros (A & B & C & D & E) (A' & B' & C' & D' & E'). repeat split; try congruence. lia. Qed.
  Lemma add_proof_same pipe p v mac s : same_votes s (add_proof calc_hash pipe p v mac s).
  Proof. unfold add_proof. cbv zeta. destruct (existsb _ _); repeat split; auto. Qed.
  Lemma add_fold_ok {E} (g : state -> E -> state) (l : list E) : (forall s e, store_ok s -> store_ok (g s e) /\ same_votes s (g s e)) ->
    forall s, store_ok s -> store_ok (fold_left g l s) /\ same_votes s (fold_left g l s).
  Proof.
    intros G. induction l as [|e l IH]; cbn; intros s OK; [split; auto using same_refl|]. destruct (G s e OK) as (A & B). destruct (IH _ A) as (C & D). split; auto. eapply same_trans; eauto.
  Qed.
  Lemma store_same s s' : s_proofs s' = s_proofs s -> store_ok s -> store_ok s'.
  Proof. intros E OK c. unfold proofs_of. rewrite E. apply OK. Qed.
  Lemma verify_proofs_ok pipe verify vdf s : store_ok s ->
    store_ok (verify_proofs gap challenge_delay calc_hash clock pipe verify vdf s) /\ same_votes s (verify_proofs gap challenge_delay calc_hash clock pipe verify vdf s).
  Proof.
    intros OK. unfold verify_proofs, tick. cbv zeta. cbn [s_queue set_clock]. set (todo := filter _ (filter _ _)). set (again := filter _ (filter _ _)). clearbody todo again.
    destruct (add_fold_ok (fun s e => if verify (fst e) then add_proof calc_hash pipe (r_proof (fst e)) (r_vdf (fst e)) (r_mac (fst e)) s else s) todo) with (s := set_clock s (S (s_clock s))) as (A & B).
    - intros s' e OK'. destruct (verify (fst e)); [split; [now apply add_proof_ok|apply add_proof_same]|split; auto using same_refl].
    - now apply (store_same s).
    - split; [eapply store_same; [|exact A]; reflexivity|]. destruct B as (B1 & B2 & B3 & B4 & B5). cbn in B5. repeat split; cbn; auto; try (rewrite ?B1, ?B2, ?B3, ?B4; reflexivity). lia.
  Qed.
  Lemma add_block_proofs_ok pipe before s : store_ok s ->
    store_ok (add_block_proofs calc_hash h_proofs h_vdf pipe before s) /\ same_votes s (add_block_proofs calc_hash h_proofs h_vdf pipe before s).
  Proof.
    intros OK. unfold add_block_proofs. apply add_fold_ok; auto. intros s' f OK'. cbv zeta. destruct (_ && _); [|split; auto using same_refl].
    destruct (h_proofs (f_block f)) as [|p l]; [split; auto using same_refl|]. split; [now apply add_proof_ok|apply add_proof_same].
  Qed.
  Lemma purge_ok top s : store_ok s -> store_ok (purge h_vdf top s) /\ same_votes s (purge h_vdf top s).
  Proof.
    intros OK. split; [|repeat split; auto]. unfold purge. set (gone := filter (fun e => fst e <=? h_vdf top) (s_challenges s)). clearbody gone. cbv zeta. intros c. unfold proofs_of. cbn [s_proofs].
    assert (D : assoc c (fold_left (fun m e => drop (snd e) m) gone (s_proofs s)) = None \/ assoc c (fold_left (fun m e => drop (snd e) m) gone (s_proofs s)) = assoc c (s_proofs s)).
    { generalize (s_proofs s) as m. induction gone as [|e g IH]; intros m; cbn [fold_left]; auto. destruct (IH (drop (snd e) m)) as [->|E]; auto.
      rewrite E, assoc_drop. destruct (addr_eqb (snd e) c); auto. }
    destruct D as [->| ->]; [repeat constructor|]. apply OK.
  Qed.

  (** ** Votes *)
  Hypothesis CLOCK : forall i j, (i <= j)%nat -> (clock i <= clock j)%Z.
  Record votes_ok (s : state) : Prop := mk_votes_ok {
    vo_record : forall a, In a (s_cast s) -> exists h t, assoc (c_parent a) (s_voted s) = Some (h, t) /\ (c_time a <= t)%Z;
    vo_past : forall p h t, assoc p (s_voted s) = Some (h, t) -> (t <= clock (s_clock s))%Z;
    vo_apart : siblings_apart gap (s_cast s) }.
  Lemma votes_same s s' : same_votes s s' -> votes_ok s -> votes_ok s'.
  Proof.
    intros (A & B & _ & _ & T) [V1 V2 V3]. constructor; rewrite ?A, ?B; auto. intros p h t E. specialize (V2 p h t E). specialize (CLOCK _ _ T). lia.
  Qed.
  Lemma earlier_cons {A} (x : A) l a b : earlier a b (x :: l) -> (b = x /\ In a l) \/ earlier a b l.
  Proof.
    intros (l1 & l2 & l3 & E). destruct l1 as [|y l1]; cbn in E; injection E as -> ->.
    - left. split; auto. apply in_or_app. right. cbn. auto.
    - right. now exists l1, l2, l3.
  Qed.
  Lemma earlier_more {A} (x : A) l a b : earlier a b l -> earlier a b (x :: l).
  Proof. intros (l1 & l2 & l3 & ->). now exists (x :: l1), l2, l3. Qed.
  Lemma earlier_here {A} (x : A) l a : In a l -> earlier a x (x :: l).
  Proof. intros I. apply in_split in I as (l1 & l2 & ->). now exists [], l1, l2. Qed.
  (** votes for [h] may go out now: all other votes for children of [p] are old enough at the time [t0] *)
  Definition clear (p h : bytes) (t0 : Z) (s : state) : Prop :=
    (t0 <= clock (s_clock s))%Z /\ forall a, In a (s_cast s) -> c_parent a = p -> c_block a = h \/ (gap < t0 - c_time a)%Z.
  Notation vote_with := (vote_with h_proofs h_phash clock).
  Notation vote_for_block := (vote_for_block h_proofs h_phash clock).
  Lemma vote_with_ok signs f t0 s k : votes_ok s -> clear (h_prev (f_block f)) (f_hash f) t0 s ->
    votes_ok (vote_with signs f s k) /\ clear (h_prev (f_block f)) (f_hash f) t0 (vote_with signs f s k).
  Proof.
    intros [V1 V2 V3] (C1 & C2). unfold FarmModel.vote_with. destruct (assoc k (s_keys s)) as [m|]; [|split; [constructor; auto|split; auto]].
    unfold tick. cbv zeta. cbn [s_clock s_cast s_voted set_clock set_cast].
    set (t := clock (s_clock s)) in *. set (bal := mk_ballot _ _ _ _ _ _ _). pose proof (CLOCK (s_clock s) (S (s_clock s)) ltac:(lia)) as M. fold t in M.
    pose proof (CLOCK (S (s_clock s)) (S (S (s_clock s))) ltac:(lia)) as M2.
    assert (CB : clock (s_clock (if signs k then set_cast (set_clock s (S (s_clock s))) (bal :: s_cast s) else set_clock s (S (s_clock s)))) = clock (S (s_clock s))) by (destruct (signs k); reflexivity).
    assert (VB : s_voted (if signs k then set_cast (set_clock s (S (s_clock s))) (bal :: s_cast s) else set_clock s (S (s_clock s))) = s_voted s) by (destruct (signs k); reflexivity).
    assert (AB : s_cast (if signs k then set_cast (set_clock s (S (s_clock s))) (bal :: s_cast s) else set_clock s (S (s_clock s))) = if signs k then bal :: s_cast s else s_cast s) by (destruct (signs k); reflexivity).
    assert (SB : s_clock (if signs k then set_cast (set_clock s (S (s_clock s))) (bal :: s_cast s) else set_clock s (S (s_clock s))) = S (s_clock s)) by (destruct (signs k); reflexivity).
    assert (OLD : forall a, In a (if signs k then bal :: s_cast s else s_cast s) -> a = bal \/ In a (s_cast s)) by (destruct (signs k); cbn; intuition).
    set (s1 := if signs k then _ else _) in *. clearbody s1. split.
    - constructor; cbn [set_voted set_clock s_cast s_voted s_clock]; rewrite ?CB, ?VB, ?AB, ?SB.
      + intros a I. rewrite assoc_put. destruct (addr_eqb_spec (h_prev (f_block f)) (c_parent a)) as [E|N].
        * exists (h_hash (f_block f)), (clock (S (s_clock s))). split; auto. apply OLD in I as [->|I]; [exact M|]. destruct (V1 a I) as (h & t' & E' & L). specialize (V2 _ _ _ E'). lia.
        * apply OLD in I as [->|I]; [now destruct N|]. apply V1; auto.
      + intros p h t' E. rewrite assoc_put in E. destruct (addr_eqb_spec (h_prev (f_block f)) p) as [EP|N].
        * injection E as _ <-. auto.
        * specialize (V2 _ _ _ E). lia.
      + destruct (signs k); auto. intros a b EB EP NB. apply earlier_cons in EB as [(-> & I)|EB]; [|now apply V3].
        cbn [bal c_parent c_block c_time] in *. destruct (C2 a I EP) as [X|X]; [now destruct NB|]. lia.
    - split; cbn [set_voted set_clock s_cast s_clock]; rewrite ?SB; [lia|]. rewrite AB. intros a I EP. apply OLD in I as [->|I]; auto.
  Qed.
  Lemma vote_for_block_ok signs f t0 s : votes_ok s -> clear (h_prev (f_block f)) (f_hash f) t0 s -> votes_ok (vote_for_block signs f s).
  Proof.
    unfold FarmModel.vote_for_block. generalize (map fst (f_validators f)) as ks. intros ks. revert s. induction ks as [|k ks IH]; cbn [fold_left]; intros s V C; auto.
    destruct (vote_with_ok signs f t0 s k V C). auto.
  Qed.
  Lemma vote_again_ok signs now s f : (now <= clock (s_clock s))%Z -> votes_ok s -> votes_ok (vote_again gap h_proofs h_phash clock signs now s f).
  Proof.
    intros T V. unfold vote_again. destruct (assoc (h_prev (f_block f)) (s_voted s)) as [[h t]|] eqn:E; auto. destruct (addr_eqb h (f_hash f)); auto.
    destruct (gap <? now - t)%Z eqn:L; auto. apply Z.ltb_lt in L. apply (vote_for_block_ok signs f now); auto. split; auto. intros a I EP. right.
    destruct (vo_record _ V a I) as (h' & t' & E' & LE). rewrite EP, E in E'. injection E' as <- <-. lia.
  Qed.
  Lemma vote_peak_ok signs peak f s : (forall g, f = Some g -> f_block g = peak) -> votes_ok s -> votes_ok (vote_peak h_proofs h_phash clock signs peak f s).
  Proof.
    intros P V. unfold vote_peak. destruct f as [f|]; auto. destruct (_ =? 0); auto. destruct (assoc (h_prev peak) (s_voted s)) as [v|] eqn:E; auto. destruct (is_best _ _ _ _); auto.
    apply (vote_for_block_ok signs f (clock (s_clock s))); auto. split; [lia|]. intros a I EP. exfalso. destruct (vo_record _ V a I) as (h & t & E' & _). rewrite EP, (P f eq_refl) in E'. congruence.
  Qed.

  (** what voting leaves alone *)
  Definition vote_keeps (s s' : state) : Prop := s_node s' = s_node s /\ s_proofs s' = s_proofs s /\ s_created s' = s_created s /\ s_made s' = s_made s /\ (s_clock s <= s_clock s')%nat.
  Lemma keeps_refl s : vote_keeps s s.
  Proof. repeat split; auto. Qed.
  Lemma keeps_trans a b c : vote_keeps a b -> vote_keeps b c -> vote_keeps a c.
  Proof. intros (A & B & C & D & E) (A' & B' & C' & D' & E'). repeat split; try congruence. lia. Qed.
  Lemma vote_with_keeps signs f s k : vote_keeps s (vote_with signs f s k).
  Proof. unfold FarmModel.vote_with. destruct (assoc k (s_keys s)); [|apply keeps_refl]. unfold tick. cbv zeta. destruct (signs k); repeat split; cbn; auto. Qed.
  Lemma vote_for_block_keeps signs f s : vote_keeps s (vote_for_block signs f s).
  Proof.
    unfold FarmModel.vote_for_block. generalize (map fst (f_validators f)) as ks. intros ks. revert s. induction ks as [|k ks IH]; cbn [fold_left]; intros s; [apply keeps_refl|].
    eapply keeps_trans; [apply vote_with_keeps|apply IH].
  Qed.
  Lemma vote_again_keeps signs now s f : vote_keeps s (vote_again gap h_proofs h_phash clock signs now s f).
  Proof. unfold vote_again. destruct (assoc _ _) as [[h t]|]; [|apply keeps_refl]. destruct (addr_eqb _ _); [apply keeps_refl|]. destruct (_ <? _)%Z; [apply vote_for_block_keeps|apply keeps_refl]. Qed.
  Lemma vote_peak_keeps signs peak f s : vote_keeps s (vote_peak h_proofs h_phash clock signs peak f s).
  Proof.
    unfold vote_peak. destruct f; [|apply keeps_refl]. destruct (_ =? 0); [apply keeps_refl|]. destruct (assoc _ _); [apply keeps_refl|]. destruct (is_best _ _ _ _); [apply vote_for_block_keeps|apply keeps_refl].
  Qed.
  Lemma again_fold_ok signs now line : forall s, (now <= clock (s_clock s))%Z -> votes_ok s ->
    votes_ok (fold_left (vote_again gap h_proofs h_phash clock signs now) line s) /\ vote_keeps s (fold_left (vote_again gap h_proofs h_phash clock signs now) line s).
  Proof.
    induction line as [|f line IH]; cbn [fold_left]; intros s T V; [split; auto using keeps_refl|]. pose proof (vote_again_keeps signs now s f) as K.
    destruct (IH (vote_again gap h_proofs h_phash clock signs now s f)) as (A & B).
    - destruct K as (_ & _ & _ & _ & K). specialize (CLOCK _ _ K). lia.
    - now apply vote_again_ok.
    - split; auto. eapply keeps_trans; eauto.
  Qed.

  (** ** The best proof *)
  Lemma best_known s b c : store_ok s -> is_best h_proofs h_phash s b = true -> h_challenge h_proofs b = Some c ->
    In (h_phash b) (map d_hash (proofs_of s c)) /\ forall h, In h (map d_hash (proofs_of s c)) -> h = h_phash b \/ hash_lt (h_phash b) h.
  Proof.
    intros OK B E. unfold is_best in B. rewrite E in B. unfold find_best_proof in B. destruct (OK c) as (S & _). destruct (proofs_of s c) as [|d l]; [discriminate|].
    destruct (addr_eqb_spec (h_phash b) (d_hash d)) as [->|]; [|discriminate]. inversion S as [|? ? S' F]; subst. rewrite Forall_forall in F. split; [cbn; auto|].
    intros h [<-|I]; auto. right. apply in_map_iff in I as (x & <- & I). now apply F.
  Qed.
  Record backed (s : state) : Prop := mk_backed {
    ba_record : forall p h t, assoc p (s_voted s) = Some (h, t) -> exists a, In a (s_cast s) /\ c_parent a = p /\ c_block a = h;
    ba_why : forall b, In b (s_cast s) -> for_best b \/ replaces_vote b (s_cast s) }.
  (** why a vote for the block of [f] may go out *)
  Definition reason (f : fork) (s : state) : Prop :=
    is_best h_proofs h_phash s (f_block f) = true \/ exists a, In a (s_cast s) /\ c_parent a = h_prev (f_block f) /\ c_block a <> f_hash f.
  Lemma backed_same s s' : s_cast s' = s_cast s -> s_voted s' = s_voted s -> backed s -> backed s'.
  Proof. intros A B [X Y]. constructor; rewrite ?A, ?B; auto. Qed.
  Lemma vote_with_backed signs f s k : (forall k, signs k = true) -> store_ok s -> backed s -> reason f s -> backed (vote_with signs f s k) /\ reason f (vote_with signs f s k).
  Proof.
    intros SG OK [B1 B2] R. unfold FarmModel.vote_with. destruct (assoc k (s_keys s)) as [m|]; [|split; [constructor; auto|auto]].
    unfold tick. cbv zeta. rewrite SG. set (bal := mk_ballot _ _ _ _ _ _ _).
    assert (W : for_best bal \/ replaces_vote bal (bal :: s_cast s)).
    { destruct R as [R|(a & I & EP & NB)].
      - left. unfold for_best, bal. cbn [c_proof c_known]. destruct (h_challenge h_proofs (f_block f)) as [c|] eqn:HC; [|unfold is_best in R; rewrite HC in R; discriminate].
        change (proofs_of (set_clock s (S (s_clock s))) c) with (proofs_of s c). now apply best_known.
      - right. exists a. split; [now apply earlier_here|]. cbn [bal c_parent c_block]. auto. }
    split.
    - constructor; cbn [set_voted set_clock set_cast s_cast s_voted].
      + intros p h t E. rewrite assoc_put in E. destruct (addr_eqb_spec (h_prev (f_block f)) p) as [<-|N].
        * injection E as <- _. exists bal. cbn. auto.
        * destruct (B1 _ _ _ E) as (a & I & EA). exists a. split; [now right|auto].
      + intros b [<-|I]; auto. destruct (B2 b I) as [|(a & EA & EP & NB)]; auto. right. exists a. split; auto. now apply earlier_more.
    - destruct R as [R|(a & I & EP & NB)]; [left; exact R|right]. exists a. cbn. auto.
  Qed.
  Lemma vote_for_block_backed signs f s : (forall k, signs k = true) -> store_ok s -> backed s -> reason f s -> backed (vote_for_block signs f s).
  Proof.
    intros SG. unfold FarmModel.vote_for_block. generalize (map fst (f_validators f)) as ks. intros ks. revert s. induction ks as [|k ks IH]; cbn [fold_left]; intros s OK B R; auto.
    destruct (vote_with_backed signs f s k SG OK B R) as (B' & R'). apply IH; auto. eapply store_same; [|exact OK]. apply (vote_with_keeps signs f s k).
  Qed.
  Lemma vote_again_backed signs now s f : (forall k, signs k = true) -> store_ok s -> backed s -> backed (vote_again gap h_proofs h_phash clock signs now s f).
  Proof.
    intros SG OK B. unfold vote_again. destruct (assoc (h_prev (f_block f)) (s_voted s)) as [[h t]|] eqn:E; auto. destruct (addr_eqb_spec h (f_hash f)) as [|N]; auto.
    destruct (gap <? now - t)%Z; auto. apply vote_for_block_backed; auto. right. destruct (ba_record _ B _ _ _ E) as (a & I & EP & EB). exists a. split; auto. split; auto. congruence.
  Qed.
  Lemma again_fold_backed signs now line : (forall k, signs k = true) -> forall s, store_ok s -> backed s -> backed (fold_left (vote_again gap h_proofs h_phash clock signs now) line s).
  Proof.
    intros SG. induction line as [|f line IH]; cbn [fold_left]; intros s OK B; auto. apply IH.
    - eapply store_same; [|exact OK]. apply (vote_again_keeps signs now s f).
    - now apply vote_again_backed.
  Qed.
  Lemma vote_peak_backed signs peak f s : (forall g, f = Some g -> f_block g = peak) -> (forall k, signs k = true) -> store_ok s -> backed s -> backed (vote_peak h_proofs h_phash clock signs peak f s).
  Proof.
    intros P SG OK B. unfold vote_peak. destruct f as [f|]; auto. destruct (_ =? 0); auto. destruct (assoc (h_prev peak) (s_voted s)); auto. destruct (is_best _ _ _ _) eqn:E; auto.
    apply vote_for_block_backed; auto. left. now rewrite (P f eq_refl).
  Qed.

  (** ** Blocks *)
  Record made_ok (s : state) : Prop := mk_made_ok {
    mo_once : one_block_per_proof (s_made s);
    mo_known : forall m, In m (s_made s) -> assoc (m_proof_hash m) (s_created s) <> None;
    mo_best : (0 < max_proofs)%nat -> Forall (best_proofs phash max_proofs) (s_made s) }.
  Lemma made_same s s' : s_made s' = s_made s -> s_created s' = s_created s -> made_ok s -> made_ok s'.
  Proof. intros A B [X Y Z]. constructor; rewrite ?A, ?B; auto. Qed.
  Lemma sorted_firstn n l : StronglySorted d_lt l -> StronglySorted d_lt (firstn n l).
  Proof. intros S. revert n. induction S as [|d l S IH F]; intros [|n]; cbn; constructor; auto. apply Forall_forall. intros x I. rewrite Forall_forall in F. apply F. rewrite <- (firstn_skipn n l). apply in_or_app. auto. Qed.
  Lemma sorted_split (l1 l2 : list pdata) : StronglySorted d_lt (l1 ++ l2) -> forall x y, In x l1 -> In y l2 -> d_lt x y.
  Proof.
    induction l1 as [|d l1 IH]; cbn; intros S x y I J; [contradiction|]. inversion S as [|? ? S' F]; subst. rewrite Forall_forall in F. destruct I as [<-|I]; auto. apply F. apply in_or_app. auto.
  Qed.
  Lemma draft_best s c d l prev : store_ok s -> proofs_of s c = d :: l -> (0 < max_proofs)%nat ->
    best_proofs phash max_proofs (mk_draft (h_hash prev) (h_height prev + 1) c (map d_proof (firstn max_proofs (d :: l))) (d_hash d) (map d_hash (d :: l))).
  Proof.
    intros OK E M. destruct (OK c) as (S & F). rewrite E in S, F. set (L := d :: l) in *. rewrite Forall_forall in F.
    assert (IN : forall x, In x (firstn max_proofs L) -> In x L). { intros x I. rewrite <- (firstn_skipn max_proofs L). apply in_or_app. auto. }
    assert (HM : map phash (map d_proof (firstn max_proofs L)) = map d_hash (firstn max_proofs L)).
    { rewrite map_map. apply map_ext_in. intros x I. symmetry. now apply F, IN. }
    unfold best_proofs. cbn [m_proof m_challenge m_known m_proof_hash]. rewrite HM. split; [|split; [|split; [|split; [|split]]]].
    - apply Forall_forall. intros p I. apply in_map_iff in I as (x & <- & I). now apply F, IN.
    - intros h I. apply in_map_iff in I as (x & <- & I). apply in_map. auto.
    - apply sorted_hashes. now apply sorted_firstn.
    - destruct max_proofs as [|k]; [lia|]. reflexivity.
    - now rewrite !map_length, firstn_length.
    - intros h I N. apply Forall_forall. intros p J. apply in_map_iff in J as (x & <- & J). apply in_map_iff in I as (y & <- & I).
      destruct (F x (IN x J)) as (<- & _). rewrite <- (firstn_skipn max_proofs L) in I, S. apply in_app_or in I as [I|I].
      + exfalso. apply N. now apply in_map.
      + eapply sorted_split; eauto.
  Qed.
  Lemma try_block_ok pipe points sign prev c s : store_ok s -> made_ok s -> let s' := try_block max_proofs pipe points sign prev c s in
    made_ok s' /\ s_proofs s' = s_proofs s /\ s_cast s' = s_cast s /\ s_voted s' = s_voted s /\ s_clock s' = s_clock s.
  Proof.
    intros OK M. cbv zeta. unfold try_block. destruct c as [c|]; [|auto]. destruct (find_best_proof s c) as [d|] eqn:FB; [|auto]. destruct (pipe (d_mac d)); [|auto].
    destruct (assoc (d_hash d) (s_created s)) eqn:CR; [auto|]. destruct prev as [b|]; [|auto]. destruct (points b); [|auto].
    unfold make_block. unfold find_best_proof in FB. destruct (proofs_of s c) as [|d' l] eqn:E; [discriminate|]. injection FB as ->. cbv zeta. destruct (sign _) as [[h w]|]; [|auto].
    cbn [s_proofs s_cast s_voted s_clock]. split; [|auto]. destruct M as [M1 M2 M3]. constructor; cbn [s_made s_created].
    - unfold one_block_per_proof. cbn [map m_proof_hash]. constructor; auto. intros I. apply in_map_iff in I as (m & EM & I). apply (M2 m I). now rewrite EM.
    - intros m I. cbn [m_proof_hash]. rewrite assoc_put. destruct (addr_eqb_spec (d_hash d) (m_proof_hash m)) as [EH|N]. { congruence. } destruct I as [<-|I]; [now destruct N|]. auto.
    - intros P. constructor; auto. eapply draft_best; eauto.
  Qed.

  (** ** A round *)
  Record all_ok (s : state) : Prop := mk_all_ok { ao_store : store_ok s; ao_votes : votes_ok s; ao_made : made_ok s }.
  Lemma set_node_same s n : same_votes s (set_node s n).
  Proof. repeat split; auto. Qed.
  Lemma same_made s s' : same_votes s s' -> made_ok s -> made_ok s'.
  Proof. intros (_ & _ & C & D & _). now apply made_same. Qed.
  Lemma peak_fork n peak f : get_header n (state_hash n) = Some peak -> find_fork (n_forks n) (h_hash peak) = Some f -> f_block f = peak.
  Proof.
    unfold get_header. destruct (find_fork (n_forks n) (state_hash n)) as [g|] eqn:E.
    - intros [= <-] F. assert (f_hash g = state_hash n) as H by (apply find_fork_some in E; tauto). unfold f_hash in H. rewrite H, E in F. now injection F as ->.
    - intros H F. apply find_some in H as (_ & H). destruct (addr_eqb_spec (h_hash peak) (state_hash n)) as [X|]; [|discriminate]. rewrite X, E in F. discriminate.
  Qed.
  Lemma round_ok o s s' : all_ok s -> round o s = Some s' -> all_ok s' /\ ((forall k, o_signs o k = true) -> backed s -> backed s').
  Proof.
    intros [S0 V M] E. unfold FarmModel.round in E. cbv zeta in E.
    destruct (verify_proofs_ok (o_pipe o) (o_verify o) (o_vdf o) s S0) as (S1 & K1). set (s1 := verify_proofs _ _ _ _ _ _ _ s) in *. clearbody s1.
    set (n1 := verify_block_proofs _ _ _ _ _ _) in E. set (s2a := set_node s1 n1) in E. assert (S2a : store_ok s2a) by (eapply store_same; [|exact S1]; reflexivity).
    destruct (add_block_proofs_ok (o_pipe o) (n_forks (s_node s1)) s2a S2a) as (S2b & K2b). set (s2b := add_block_proofs _ _ _ _ _ _) in *. clearbody s2b.
    assert (K2 : same_votes s s2b). { eapply same_trans; [exact K1|]. eapply same_trans; [|exact K2b]. apply set_node_same. }
    set (w := mk_news _ _ _ _ _ _ _ _) in E. clearbody w. cbn [set_node s_node] in E. destruct (update _ _ _ _ w _) as [n|]; [|discriminate].
    set (s3 := if addr_eqb (h_hash (n_root n)) _ then _ else _) in E. assert (X3 : store_ok s3 /\ same_votes s s3).
    { unfold s3. destruct (addr_eqb _ _).
      - split; [eapply store_same; [|exact S2b]; reflexivity|]. eapply same_trans; [exact K2|]. repeat split; auto.
      - destruct (purge_ok (n_root n) (set_node (set_node s2b (s_node s1)) n)) as (A & B); [eapply store_same; [|exact S2b]; reflexivity|]. split; [exact A|].
        eapply same_trans; [exact K2|exact B]. }
    destruct X3 as (S3 & K3). clearbody s3. pose proof (votes_same _ _ K3 V) as V3. pose proof (same_made _ _ K3 M) as M3.
    assert (B3 : backed s -> backed s3) by (apply backed_same; apply K3).
    destruct (get_header n (state_hash n)) as [peak|] eqn:PK; [|injection E as <-; split; [constructor; auto|auto]].
    unfold tick in E. cbv zeta in E. set (now := clock (s_clock s3)) in E. set (s4 := set_clock s3 (S (s_clock s3))) in E.
    assert (S4 : store_ok s4) by (eapply store_same; [|exact S3]; reflexivity).
    assert (K4 : same_votes s3 s4) by (repeat split; cbn; auto). pose proof (votes_same _ _ K4 V3) as V4. pose proof (same_made _ _ K4 M3) as M4.
    assert (B4 : backed s -> backed s4) by (intros B; apply (backed_same s3); auto).
    assert (T4 : (now <= clock (s_clock s4))%Z) by (apply CLOCK; cbn; lia). clearbody now s4.
    destruct (fork_line n _) as [line|]; [|discriminate]. destruct (o_synced o); [|injection E as <-; split; [constructor; auto|auto]].
    pose proof (peak_fork n peak) as PF. set (f := find_fork _ _) in *. assert (PG : forall g, f = Some g -> f_block g = peak) by (intros g EG; now apply PF). clearbody f. clear PF.
    pose proof (vote_peak_ok (o_signs o) peak f s4 PG V4) as V5. pose proof (vote_peak_keeps (o_signs o) peak f s4) as K5.
    pose proof (fun SG B => vote_peak_backed (o_signs o) peak f s4 PG SG S4 B) as B5. set (s5 := vote_peak _ _ _ _ _ _ s4) in *. clearbody s5.
    assert (S5 : store_ok s5) by (eapply store_same; [|exact S4]; apply K5). assert (M5 : made_ok s5) by (eapply made_same; [| |exact M4]; apply K5).
    assert (T5 : (now <= clock (s_clock s5))%Z). { destruct K5 as (_ & _ & _ & _ & K5). specialize (CLOCK _ _ K5). lia. }
    destruct (again_fold_ok (o_signs o) now line s5 T5 V5) as (V6 & K6). pose proof (fun SG B => again_fold_backed (o_signs o) now line SG s5 S5 B) as B6.
    set (s6 := fold_left _ line s5) in *. clearbody s6.
    assert (S6 : store_ok s6) by (eapply store_same; [|exact S5]; apply K6). assert (M6 : made_ok s6) by (eapply made_same; [| |exact M5]; apply K6).
    set (s7 := if h_height peak =? 0 then _ else _) in E. assert (X7 : made_ok s7 /\ s_proofs s7 = s_proofs s6 /\ s_cast s7 = s_cast s6 /\ s_voted s7 = s_voted s6 /\ s_clock s7 = s_clock s6).
    { unfold s7. destruct (_ =? 0); [auto|]. now apply try_block_ok. }
    destruct X7 as (M7 & P7 & C7 & W7 & T7). clearbody s7. assert (S7 : store_ok s7) by (eapply store_same; eauto).
    injection E as <-. destruct (try_block_ok (o_pipe o) (o_points o) (o_sign o) (Some peak) (o_next o peak) s7 S7 M7) as (M8 & P8 & C8 & W8 & T8). set (s8 := try_block _ _ _ _ _ _ s7) in *. clearbody s8.
    rewrite P7 in P8. rewrite C7 in C8. rewrite W7 in W8. rewrite T7 in T8. split.
    - constructor; auto; [eapply store_same; eauto|]. destruct V6 as [X Y Z]. constructor; rewrite ?C8, ?W8, ?T8; auto.
    - intros SG B. apply (backed_same s6); auto.
  Qed.
  Lemma receive_same late v s : same_votes s (receive_vote vote_ok h_proofs h_phash late v s).
  Proof. repeat split; auto. Qed.
  Lemma happens_ok e s s' : all_ok s -> happens e s = Some s' -> all_ok s' /\ ((forall o, e = Round o -> forall k, o_signs o k = true) -> backed s -> backed s').
  Proof.
    intros A E. assert (SAME : forall t, same_votes s t -> s_proofs t = s_proofs s -> all_ok t /\ (backed s -> backed t)).
    { intros t K P. destruct A as [S V M]. split; [constructor; [eapply store_same; eauto|eapply votes_same; eauto|eapply same_made; eauto]|]. apply backed_same; apply K. }
    destruct e as [b|late v|r|o|n]; cbn [FarmModel.happens] in E.
    - injection E as <-. destruct (SAME (set_node s (add_block b (s_node s)))) as (X & Y); [apply set_node_same|reflexivity|auto].
    - injection E as <-. destruct (SAME (receive_vote vote_ok h_proofs h_phash late v s)) as (X & Y); [apply receive_same|reflexivity|auto].
    - injection E as <-. destruct (SAME (handle_proof clock r s)) as (X & Y); [repeat split; cbn; auto|reflexivity|auto].
    - destruct (round_ok o s s' A E) as (X & Y). split; [exact X|]. intros SG. apply Y. apply (SG o eq_refl).
    - injection E as <-. destruct (SAME (set_clock s (s_clock s + n)%nat)) as (X & Y); [repeat split; cbn; auto; lia|reflexivity|auto].
  Qed.
  Definition all_sign (l : list event) : Prop := forall o k, In (Round o) l -> o_signs o k = true.
  Lemma history_ok l : forall s s', all_ok s -> history l s = Some s' -> all_ok s' /\ (all_sign l -> backed s -> backed s').
  Proof.
    induction l as [|e l IH]; cbn [FarmModel.history]; intros s s' A E; [injection E as <-; auto|]. destruct (happens e s) as [s1|] eqn:H; [|discriminate].
    destruct (happens_ok e s s1 A H) as (A1 & B1). destruct (IH s1 s' A1 E) as (A2 & B2). split; auto. intros SG B. apply B2.
    - intros o k I. apply SG. now right.
    - apply B1; auto. intros o -> k. apply SG. now left.
  Qed.
  Lemma start_ok root older t : all_ok (start root older t) /\ backed (start root older t).
  Proof.
    split; constructor; cbn; try contradiction; try discriminate.
    - intros c. split; constructor.
    - constructor; cbn; try contradiction; try discriminate. intros a b (l1 & l2 & l3 & E). destruct l1; discriminate.
    - constructor; cbn; try contradiction; constructor.
  Qed.
  Lemma restart_ok root older s : all_ok s -> store_ok (restart root older s).
  Proof. intros _ c. split; constructor. Qed.

  (** ** The check of own blocks *)
  Lemma check_order_ok l : forall prev set first expect, (forall h, In h set -> h = prev \/ hash_lt h prev) ->
    StronglySorted hash_lt (map phash l) -> (first = true -> hd_error (map phash l) = Some expect) ->
    (first = true -> set = [] /\ forall p, In p l -> bytescmp (phash p) prev <> Lt) -> (first = false -> Forall (fun p => hash_lt prev (phash p)) l) ->
    check_order calc_hash prev set first expect l = true.
  Proof.
    induction l as [|p l IH]; intros prev set first expect HS S HF H1 H2; cbn [check_order]; auto. cbv zeta. cbn [map] in S. inversion S as [|? ? S' F]; subst.
    assert (NL : bytescmp (phash p) prev <> Lt).
    { destruct first; [apply H1; cbn; auto|]. specialize (H2 eq_refl). inversion H2 as [|? ? L _]; subst. intros C. apply (hash_lt_irrefl prev). eapply hash_lt_trans; eauto. }
    assert (NX : first && negb (addr_eqb expect (phash p)) = false). { destruct first; auto. specialize (HF eq_refl). cbn in HF. injection HF as ->. now rewrite addr_eqb_refl. }
    assert (NM : member (phash p) set = false).
    { destruct (member (phash p) set) eqn:X; auto. exfalso. apply existsb_exists in X as (h & I & X). destruct (addr_eqb_spec (phash p) h) as [<-|]; [|discriminate].
      destruct first; [destruct (H1 eq_refl) as (-> & _); contradiction|]. specialize (H2 eq_refl). inversion H2 as [|? ? L _]; subst.
      destruct (HS _ I) as [X1|X1]; [rewrite <- X1 in L|]; eapply hash_lt_irrefl; [exact L|]. eapply hash_lt_trans; eauto. }
    assert (REST : check_order calc_hash (phash p) (phash p :: set) false expect l = true).
    { apply IH; auto; try discriminate.
      - intros h [<-|I]; auto. right. destruct first; [destruct (H1 eq_refl) as (-> & _); contradiction|]. specialize (H2 eq_refl). inversion H2 as [|? ? L _]; subst.
        destruct (HS h I) as [->|L']; auto. eapply hash_lt_trans; eauto.
      - intros _. apply Forall_forall. intros q I. rewrite Forall_forall in F. apply F. now apply in_map. }
    rewrite NX, NM. destruct (bytescmp (phash p) prev); [auto|now destruct NL|auto].
  Qed.
  Lemma zero_least n : forall x, length x = n -> bytescmp x (repeat 0 n) <> Lt.
  Proof.
    induction n as [|n IH]; intros [|a x] L; try discriminate. cbn [repeat bytescmp]. destruct (N.compare_spec a 0); try discriminate; [|lia]. apply IH. now injection L.
  Qed.
  Lemma own_check m : (forall c xs, length (calc_hash c xs) = 32%nat) -> (0 < max_proofs)%nat -> best_proofs phash max_proofs m -> check_proofs max_proofs calc_hash (m_proof m) (m_proof_hash m) = true.
  Proof.
    intros LEN P (B1 & B2 & B3 & B4 & B5 & B6). unfold check_proofs. rewrite !andb_true_iff, negb_true_iff, Nat.eqb_neq, Nat.leb_le. split; [split|].
    - destruct (m_proof m); [discriminate|]. cbn. lia.
    - lia.
    - apply check_order_ok; auto; try discriminate; [intros h []|]. intros _. split; auto. intros p _. apply zero_least. apply LEN.
  Qed.
  (** ** Whatever order proofs come in *)
  Lemma adds_hashes l : forall s, store_ok s ->
    let s' := fold_left (fun s e => add_proof calc_hash (fst e) (r_proof (snd e)) (r_vdf (snd e)) (r_mac (snd e)) s) l s in
    store_ok s' /\ forall c h, In h (map d_hash (proofs_of s' c)) <-> In h (map d_hash (proofs_of s c)) \/ exists e : (bytes -> bool) * response, In e l /\ p_challenge (r_proof (snd e)) = c /\ h = phash (r_proof (snd e)).
  Proof.
    induction l as [|e l IH]; cbn [fold_left]; intros s OK; cbv zeta.
    - split; auto. intros c h. split; auto. intros [|(e & [] & _)]; auto.
    - destruct (IH (add_proof calc_hash (fst e) (r_proof (snd e)) (r_vdf (snd e)) (r_mac (snd e)) s)) as (A & B); [now apply add_proof_ok|]. split; auto.
      intros c h. rewrite B, add_proof_hashes by auto. split.
      + intros [[X|(X & Y)]|(x & I & X)]; auto; right; [exists e|exists x]; cbn; auto.
      + intros [X|(x & [<-|I] & X)]; auto. right. exists x. auto.
  Qed.
End FARM.
