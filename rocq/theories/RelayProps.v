(** C78 and C79: what the router passes on, how often, to whom, and whether it arrives. *)
Require Import List Arith NArith Bool Lia.
Require Import Verif.FetchModel Verif.FetchProofs Verif.RelayModel Verif.RelaySpec Verif.RelayProofs Verif.RelayCreditProofs Verif.RelaySendProofs Verif.RelayDeliverProofs Verif.RelayBackProofs.
Import List ListNotations.
Open Scope N_scope.

(** ** C78: a message is given to the node and passed on once *)
(** Whatever comes from peers and from the own node, in any order: a message is given to the node at most as often, and put into the queues of peers at most as often, as its hash was found to be new. *)
Theorem C78_once : forall mh ms tgt cd dr l r o h,
  run mh ms tgt cd dr l = (r, o) -> (count (is_publish h) o <= count (is_seen h) o)%nat /\ (count (is_relay h) o <= count (is_seen h) o)%nat.
Proof. intros mh ms tgt cd dr l r o h E. pose proof (run_hinv _ _ _ _ _ _ _ _ E) as [_ _ _ _ P R]. specialize (P h). specialize (R h). lia. Qed.
Print Assumptions C78_once.

(** A hash is found to be new again only after as many other new hashes as the cache holds. *)
Theorem C78_gap : forall mh ms tgt cd dr l r o a b c h,
  run mh ms tgt cd dr l = (r, o) -> o = a ++ Seen h :: b ++ Seen h :: c -> (mh <= length (seen b))%nat.
Proof.
  intros mh ms tgt cd dr l r o a b c h E X. pose proof (run_hinv _ _ _ _ _ _ _ _ E) as [_ _ _ G _ _]. apply (G (seen a) (seen b) (seen c) h).
  rewrite X, seen_app. f_equal. change (Seen h :: b ++ Seen h :: c) with ([Seen h] ++ (b ++ ([Seen h] ++ c))). rewrite !seen_app. reflexivity.
Qed.
Print Assumptions C78_gap.

Lemma count_split {A} (f : A -> bool) l : (2 <= count f l)%nat -> exists a x b y c, l = a ++ x :: b ++ y :: c /\ f x = true /\ f y = true.
Proof.
  assert (ONE : forall l, (1 <= count f l)%nat -> exists b y c, l = b ++ y :: c /\ f y = true).
  { induction l0 as [|z l0 IH]; intros H; [cbn in H; lia|]. unfold count in *. cbn [filter] in H. destruct (f z) eqn:F; [exists [], z, l0; auto|].
    destruct (IH H) as (b & y & c & -> & Y). exists (z :: b), y, c. auto. }
  induction l as [|z l IH]; intros H; [cbn in H; lia|]. unfold count in H. cbn [filter] in H. destruct (f z) eqn:F.
  - cbn [length] in H. destruct (ONE l) as (b & y & c & -> & Y); [unfold count; lia|]. exists [], z, b, y, c. auto.
  - destruct (IH H) as (a & x & b & y & c & -> & X & Y). exists (z :: a), x, b, y, c. auto.
Qed.
(** So as long as no more hashes were seen than the cache holds, every message is given to the node at most once and passed on at most once. *)
Theorem C78_at_most_once : forall mh ms tgt cd dr l r o h,
  run mh ms tgt cd dr l = (r, o) -> (length (seen o) <= mh)%nat -> (count (is_publish h) o <= 1)%nat /\ (count (is_relay h) o <= 1)%nat.
Proof.
  intros mh ms tgt cd dr l r o h E L. destruct (C78_once mh ms tgt cd dr l r o h E) as [P R].
  destruct (le_lt_dec 2 (count (is_seen h) o)) as [T|T]; [|lia]. exfalso.
  destruct (count_split _ _ T) as (a & x & b & y & c & X & X1 & X2). destruct x; try discriminate. destruct y; try discriminate. cbn in X1, X2. apply N.eqb_eq in X1, X2. subst h0 h1.
  pose proof (C78_gap mh ms tgt cd dr l r o a b c h E X) as G. rewrite X in L.
  change (a ++ Seen h :: b ++ Seen h :: c) with (a ++ ([Seen h] ++ (b ++ ([Seen h] ++ c)))) in L. rewrite !seen_app, !app_length in L. cbn in L. lia.
Qed.
Print Assumptions C78_at_most_once.

(** What is given to the node came from a peer and was well-formed, blocks and proofs of time with a valid signature; what is passed on came from the own node, or was such a block or proof of time. *)
Theorem C78_valid : forall mh ms tgt cd dr l r o,
  run mh ms tgt cd dr l = (r, o) ->
  (forall m, In (Publish m) o -> m_ok m = true /\ (m_kind m = KBlock \/ m_kind m = KVdf -> m_sig m = true) /\ exists now s c, In (ERecv now s c m) l) /\
  (forall m, In (Relay true m) o -> exists now s local, In (EHandle now s m local) l) /\
  (forall m, In (Relay false m) o -> m_ok m = true /\ m_sig m = true /\ (m_kind m = KBlock \/ m_kind m = KVdf) /\ exists now s c, In (ERecv now s c m) l).
Proof.
  intros mh ms tgt cd dr l r o E. destruct (run_credit _ _ _ _ _ _ _ _ E) as [F _]. split; [|split]; intros m H; destruct (F _ H) as (e & I & X); cbn in X.
  - destruct X as (now & s & c & -> & X1 & X2). repeat split; eauto.
  - destruct X as (now & s & local & ->). eauto.
  - destruct X as (now & s & c & -> & X1 & X2 & X3). repeat split; eauto.
Qed.
Print Assumptions C78_valid.

(** Before it is verified, a block is passed on at most once for each proof of space of that farmer that the node verified for that VDF height, a proof of time at most once for each proof of time of
    that timelord that the node verified: nobody can use this node to spread blocks without having a proof. *)
Theorem C78_early : forall mh ms tgt cd dr l r o vdf key,
  run mh ms tgt cd dr l = (r, o) ->
  (count (early_block vdf key) o <= count (proof_of vdf key) l)%nat /\ (count (early_vdf key) o <= count (vdf_of key) l)%nat.
Proof.
  intros mh ms tgt cd dr l r o vdf key E. destruct (run_credit _ _ _ _ _ _ _ _ E) as (_ & A & B). specialize (A vdf key). specialize (B key). lia.
Qed.
Print Assumptions C78_early.

(** A peer is sent only what is passed on, and at most as often. *)
Theorem C78_sent : forall mh ms tgt cd dr l r o c h,
  Forall shuffles l -> run mh ms tgt cd dr l = (r, o) ->
  (count (is_sent c h) o <= count (is_relay h) o)%nat /\ forall m, In (Sent c m) o -> exists v, In (Relay v m) o.
Proof.
  intros mh ms tgt cd dr l r o c h SH E. pose proof (run_pinv _ _ _ _ _ _ _ _ SH E) as P. split; [|intros m; apply (x_source _ _ _ P)].
  pose proof (x_count _ _ _ P c h). lia.
Qed.
Print Assumptions C78_sent.

(** A peer that shows for the first time that it has a message, or that was sent it, is not sent it (again) on this connection, before as many other messages went to and fro as the cache for that peer holds. *)
Theorem C78_back : forall mh ms tgt cd dr l1 e l2 r1 o1 r2 o2 r3 o3 c h p,
  Forall shuffles (l1 ++ e :: l2) -> run mh ms tgt cd dr l1 = (r1, o1) -> step mh ms tgt cd dr r1 e = (r2, o2) -> run mh ms tgt cd dr (l1 ++ e :: l2) = (r3, o1 ++ o2 ++ o3) ->
  get c (r_peers r1) = Some p -> Forall (stays c) l2 ->
  (shows cd c h r1 e /\ ~ told c h l1 /\ ~ sent_to c h o1) \/ ((exists now ok, e = ESend now ok) /\ sent_to c h o2) ->
  (count (from c) l2 + count (to c) (o2 ++ o3) <= ms)%nat -> ~ sent_to c h o3.
Proof.
  intros mh ms tgt cd dr l1 e l2 r1 o1 r2 o2 r3 o3 c h p SH R1 S2 R3 G ST K L. eapply not_back; eauto.
Qed.
Print Assumptions C78_back.

(** VDF points are taken from connections to master nodes only. *)
Theorem C78_points : forall mh ms tgt cd dr l r o m,
  Forall shuffles l -> run mh ms tgt cd dr l = (r, o) -> In (Publish m) o -> m_kind m = KPoint -> exists now s c, In (ERecv now s c m) l /\ In (EConnect c true) l.
Proof. intros mh ms tgt cd dr l r o m SH R H K. eapply points_from_masters; eauto. Qed.
Print Assumptions C78_points.

(** ** C79: own messages reach every peer they are for *)
(** A message of our own that is passed on is written to the connection of every peer it is for, or that peer has shown that it has it, once time has passed and the queues were worked off,
    provided that the connection stays and that nothing waits in the queue of that peer for one of the same points in time. *)
Theorem C79_partial : forall mh ms tgt cd dr l1 now s m local l2 t ok c p r1 o1 r2 o2,
  Forall shuffles (l1 ++ EHandle now s m local :: l2) -> Forall (keeps c) l2 ->
  run mh ms tgt cd dr l1 = (r1, o1) -> run mh ms tgt cd dr (l1 ++ EHandle now s m local :: l2 ++ [ESend t ok]) = (r2, o2) ->
  own m local o1 -> In (Relay true m) (snd (step mh ms tgt cd dr r1 (EHandle now s m local))) ->
  get c (r_peers r1) = Some p -> p_valid p = true -> meant m (p_type p) (p_synced p) = true ->
  (forall k i, k <= N.of_nat (length (wanted m r1)) -> ~ In (now + gap tgt m r1 * k, i) (p_queue p)) -> now + tgt < t ->
  told c (m_hash m) (l1 ++ EHandle now s m local :: l2) \/ sent_to c (m_hash m) o2.
Proof.
  intros mh ms tgt cd dr l1 now s m local l2 t ok c p r1 o1 r2 o2 SH KP R1 R2 OW IR G V M FREE LT.
  pose proof (delivered mh ms tgt cd dr l1 now s m local l2 t ok c p SH KP) as D. rewrite R1, R2 in D. apply D; assumption.
Qed.
Print Assumptions C79_partial.

Definition rn := run 4 3 1000 5 true.
Definition id_shuffle : list N -> list N := fun l => l.
Definition none_ok : N -> msg -> bool := fun _ _ => false.
Definition all_ok : N -> msg -> bool := fun _ _ => true.
Definition tx (h : N) : msg := mk_msg KTx h 0 0 0 true true true true.
Definition blk (h v k : N) : msg := mk_msg KBlock h v v k true true true true.
Definition vdf (h v k : N) : msg := mk_msg KVdf h v v k true true true true.
Definition prf (h v k : N) : msg := mk_msg KProof h v v k true true true true.
Definition peers : list event := [EConnect 1 false; EType 1 Full; ESynced 1 true; EConnect 2 false; EType 2 Full; ESynced 2 true; EConnect 3 false; EType 3 OtherType].

(** without that proviso it is lost: two transactions of the wallet that are put into the queues in the same microsecond *)
Definition clash : list event := peers ++ [EHandle 50 id_shuffle (tx 7) true] ++ EHandle 50 id_shuffle (tx 8) true :: [EUpdate] ++ [ESend 5000 all_ok].
Theorem C79_refuted : exists mh ms tgt cd dr l1 now s m local l2 t ok c p r1 o1 r2 o2,
  Forall shuffles (l1 ++ EHandle now s m local :: l2) /\ Forall (keeps c) l2 /\
  run mh ms tgt cd dr l1 = (r1, o1) /\ run mh ms tgt cd dr (l1 ++ EHandle now s m local :: l2 ++ [ESend t ok]) = (r2, o2) /\
  own m local o1 /\ In (Relay true m) (snd (step mh ms tgt cd dr r1 (EHandle now s m local))) /\
  get c (r_peers r1) = Some p /\ p_valid p = true /\ meant m (p_type p) (p_synced p) = true /\ now + tgt < t /\
  ~ told c (m_hash m) (l1 ++ EHandle now s m local :: l2) /\ ~ sent_to c (m_hash m) o2 /\ forall x, In x (r_peers r2) -> p_queue (snd x) = [].
Proof.
  exists 4%nat, 3%nat, 1000, 5, true, (peers ++ [EHandle 50 id_shuffle (tx 7) true]), 50, id_shuffle, (tx 8), true, [EUpdate], 5000, all_ok, 1.
  do 5 eexists. split; [|split; [|split; [vm_compute; reflexivity|split; [vm_compute; reflexivity|]]]].
  - unfold peers, id_shuffle. cbn [app]. repeat (apply Forall_cons; [first [exact Logic.I|exact (fun l ND => conj ND (fun c => iff_refl _))]|]). apply Forall_nil.
  - repeat constructor; discriminate.
  - split; [reflexivity|]. split; [vm_compute; tauto|]. split; [vm_compute; reflexivity|]. split; [reflexivity|]. split; [reflexivity|]. split; [reflexivity|]. split; [|split].
    + unfold peers. cbn [app]. intros [H|(n & s & m & H & _)]; cbn in H; repeat (destruct H as [H|H]; [discriminate|]); destruct H.
    + intros (m & H & X). cbn in H. repeat (destruct H as [H|H]; [try discriminate; inversion H; subst; discriminate|]). destruct H.
    + intros x H. cbn in H. repeat (destruct H as [<-|H]; [reflexivity|]). destruct H.
Qed.
Print Assumptions C79_refuted.

(** the hypotheses are met: a transaction of the wallet while another waits in the queues, and a peer comes and goes *)
Definition first : list event := peers ++ [EHandle 20 id_shuffle (tx 7) true].
Definition later : list event := [ESend 60 none_ok; EConnect 4 false; EInvalid 2; EUpdate; EGone 2].
Example C79_met :
  Forall shuffles (first ++ EHandle 50 id_shuffle (tx 8) true :: later) /\ Forall (keeps 1) later /\ own (tx 8) true (snd (rn first)) /\
  In (Relay true (tx 8)) (snd (step 4 3 1000 5 true (fst (rn first)) (EHandle 50 id_shuffle (tx 8) true))) /\
  (exists p, get 1 (r_peers (fst (rn first))) = Some p /\ p_valid p = true /\ meant (tx 8) (p_type p) (p_synced p) = true /\ p_queue p <> [] /\
    (forall k i, k <= N.of_nat (length (wanted (tx 8) (fst (rn first)))) -> ~ In (50 + gap 1000 (tx 8) (fst (rn first)) * k, i) (p_queue p))) /\
  snd (rn (first ++ EHandle 50 id_shuffle (tx 8) true :: later ++ [ESend 1051 none_ok])) = [Seen 7; Relay true (tx 7); Seen 8; Relay true (tx 8); Sent 2 (tx 7); Sent 2 (tx 8); Sent 1 (tx 7); Sent 1 (tx 8)].
Proof.
  split; [|split; [|split; [|split; [|split]]]].
  - unfold first, later, peers, id_shuffle. cbn [app]. repeat (apply Forall_cons; [first [exact Logic.I|exact (fun l ND => conj ND (fun c => iff_refl _))]|]). apply Forall_nil.
  - repeat constructor; discriminate.
  - reflexivity.
  - vm_compute. tauto.
  - eexists. split; [vm_compute; reflexivity|]. split; [reflexivity|]. split; [reflexivity|]. split; [discriminate|]. intros k i _ H.
    replace (gap 1000 (tx 8) (fst (rn first))) with 333 in H by (vm_compute; reflexivity). destruct H as [H|[]]. apply (f_equal fst) in H. cbn [fst] in H. lia.
  - vm_compute. reflexivity.
Qed.

(** a block comes twice, from two peers, and is then published by the node; a block without a proof is not passed on before it is verified; the peers that sent it do not get it back *)
Definition blocks : list event :=
  peers ++ [EHandle 10 id_shuffle (prf 5 3 77) false; ERecv 20 id_shuffle 1 (blk 6 3 77); ERecv 21 id_shuffle 2 (blk 6 3 77); ERecv 22 id_shuffle 2 (blk 9 3 78);
            EHandle 30 id_shuffle (blk 6 3 77) false; EHandle 31 id_shuffle (vdf 11 4 5) false; ESend 4000 all_ok; EConnect 4 false].
Example C78_met : Forall shuffles blocks /\
  snd (rn blocks) = [Seen 5; Relay true (prf 5 3 77); Seen 6; Relay false (blk 6 3 77); Publish (blk 6 3 77); Seen 9; Publish (blk 9 3 78); Seen 11; Relay true (vdf 11 4 5);
                     Sent 2 (prf 5 3 77); Sent 2 (vdf 11 4 5); Sent 1 (prf 5 3 77); Sent 1 (vdf 11 4 5); Sent 4 (vdf 11 4 5)] /\
  (length (seen (snd (rn blocks))) <= 4)%nat /\ count (early_block 3 77) (snd (rn blocks)) = 1%nat /\ count (proof_of 3 77) blocks = 1%nat.
Proof.
  split; [|vm_compute; repeat split; auto].
  unfold blocks, peers, id_shuffle. cbn [app]. repeat (apply Forall_cons; [first [exact Logic.I|exact (fun l ND => conj ND (fun c => iff_refl _))]|]). apply Forall_nil.
Qed.
(** a hash is new again after the cache was filled with others *)
Definition again : list event := map (fun h => ERecv 1 id_shuffle 1 (tx h)) [1; 2; 3; 4; 5] ++ [EUpdate; ERecv 1 id_shuffle 1 (tx 1)].
Example C78_gap_met : exists a b c, snd (rn again) = a ++ Seen 1 :: b ++ Seen 1 :: c /\ length (seen b) = 4%nat.
Proof. exists [], [Publish (tx 1); Seen 2; Publish (tx 2); Seen 3; Publish (tx 3); Seen 4; Publish (tx 4); Seen 5; Publish (tx 5)], [Publish (tx 1)]. vm_compute. auto. Qed.
(** peer 1 sent the block and is not sent it, and gets the proof of space once although the queues are worked off again; it was connected when it did *)
Definition before_block : list event := peers ++ [EHandle 10 id_shuffle (prf 5 3 77) false].
Definition after_block : list event :=
  [ERecv 22 id_shuffle 2 (blk 9 3 78); EHandle 30 id_shuffle (blk 6 3 77) false; EHandle 31 id_shuffle (vdf 11 4 5) false; ESend 4000 all_ok; EUpdate; ESend 5000 all_ok].
Example C78_back_met :
  Forall shuffles (before_block ++ ERecv 20 id_shuffle 1 (blk 6 3 77) :: after_block) /\ Forall (stays 1) after_block /\ (exists p, get 1 (r_peers (fst (rn before_block))) = Some p) /\
  shows 5 1 6 (fst (rn before_block)) (ERecv 20 id_shuffle 1 (blk 6 3 77)) /\ ~ told 1 6 before_block /\ ~ sent_to 1 6 (snd (rn before_block)) /\
  snd (rn (before_block ++ ERecv 20 id_shuffle 1 (blk 6 3 77) :: after_block)) =
    [Seen 5; Relay true (prf 5 3 77)] ++ [Seen 6; Relay false (blk 6 3 77); Publish (blk 6 3 77)] ++
    [Seen 9; Publish (blk 9 3 78); Seen 11; Relay true (vdf 11 4 5); Sent 2 (prf 5 3 77); Sent 2 (blk 6 3 77); Sent 2 (vdf 11 4 5); Sent 1 (prf 5 3 77); Sent 1 (vdf 11 4 5)] /\
  (count (from 1) after_block + 2 <= 3)%nat.
Proof.
  split; [|split; [|split; [|split; [|split; [|split; [|split]]]]]].
  - unfold before_block, after_block, peers, id_shuffle. cbn [app]. repeat (apply Forall_cons; [first [exact Logic.I|exact (fun l ND => conj ND (fun c => iff_refl _))]|]). apply Forall_nil.
  - repeat constructor; discriminate.
  - eexists. vm_compute. reflexivity.
  - vm_compute. repeat split; discriminate.
  - unfold before_block, peers. cbn [app]. intros [H|(n & s & m & H & _)]; cbn in H; repeat (destruct H as [H|H]; [discriminate|]); destruct H.
  - intros (m & H & _). cbn in H. repeat (destruct H as [H|H]; [discriminate|]). destruct H.
  - vm_compute. reflexivity.
  - vm_compute. auto.
Qed.
Definition point (h : N) : msg := mk_msg KPoint h 0 0 0 true true true true.
Example C78_points_met : snd (rn [EConnect 1 false; EConnect 9 true; ERecv 1 id_shuffle 1 (point 3); ERecv 2 id_shuffle 9 (point 4)]) = [Seen 4; Publish (point 4)].
Proof. reflexivity. Qed.
