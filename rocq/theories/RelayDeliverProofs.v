(** Own messages reach the peers they are for. *)
Require Import List Arith NArith Bool Lia Sorted.
Require Import Verif.FetchModel Verif.FetchProofs Verif.RelayModel Verif.RelaySpec Verif.RelayProofs Verif.RelayCreditProofs Verif.RelaySendProofs.
Import List ListNotations.
Open Scope N_scope.

Section P.
  Variables (max_hash_cache max_sent_cache : nat) (relay_target commit_delay : N) (do_relay : bool).
  Notation broadcast := (broadcast relay_target).
  Notation handle := (handle relay_target do_relay).
  Notation step := (step max_hash_cache max_sent_cache relay_target commit_delay do_relay).
  Notation run := (run max_hash_cache max_sent_cache relay_target commit_delay do_relay).

  Notation gap := (gap relay_target).
  Lemma get_in {A} c (l : list (N * A)) p : get c l = Some p -> In (c, p) l.
  Proof. induction l as [|[k v] l IH]; [discriminate|]. rewrite get_cons. destruct (k =? c) eqn:E; [apply N.eqb_eq in E; subst; intros [= <-]; cbn; auto|cbn; auto]. Qed.
  Lemma nodup_length (a b : list N) : NoDup a -> NoDup b -> (forall x, In x a <-> In x b) -> length a = length b.
  Proof. intros A B H. apply Nat.le_antisymm; apply NoDup_incl_length; auto; intros x Y; apply H; exact Y. Qed.
  Lemma broadcast_queues r0 r now s m f so c p :
    NoDup (keys r) -> (forall l, NoDup l -> NoDup (s l) /\ forall c, In c (s l) <-> In c l) -> r_peers r0 = r_peers r ->
    (forall x : N * peer, (negb so || p_synced (snd x)) && f (p_type (snd x)) = meant m (p_type (snd x)) (p_synced (snd x))) ->
    get c (r_peers r) = Some p -> meant m (p_type p) (p_synced p) = true ->
    exists k, k <= N.of_nat (length (wanted m r)) /\ get c (r_peers (broadcast r0 now s m f true so)) = Some (addq (now + gap m r * k) (mk_item m true) p).
  Proof.
    intros ND SH EP EF G M. unfold RelayModel.broadcast.
    assert (ET : targets f so r0 = wanted m r).
    { unfold targets, wanted. rewrite EP. f_equal. apply filter_ext. exact EF. }
    rewrite ET. assert (NW : NoDup (wanted m r)) by (rewrite <- ET; apply targets_nodup; unfold keys; rewrite EP; exact ND).
    destruct (SH _ NW) as [NS IS]. assert (LE : length (s (wanted m r)) = length (wanted m r)) by (apply nodup_length; auto).
    assert (IW : In c (s (wanted m r))) by (apply IS; unfold wanted; apply in_map_iff; exists (c, p); split; [reflexivity|]; apply filter_In; split; [apply get_in; exact G|exact M]).
    apply In_nth_error in IW as [k IW]. destruct (get_queue_all c (s (wanted m r)) r0 now (relay_target / (1 + N.of_nat (length (s (wanted m r))))) (mk_item m true) NS) as [_ B].
    exists (N.of_nat k). assert (KL : (k < length (s (wanted m r)))%nat) by (apply nth_error_Some; congruence). split; [lia|].
    rewrite (B k IW), EP, G, LE. reflexivity.
  Qed.
  Lemma handle_queues r o0 now s m local r' o c p :
    hinv max_hash_cache r o0 -> NoDup (keys r) -> (forall l, NoDup l -> NoDup (s l) /\ forall c, In c (s l) <-> In c l) ->
    own m local o0 -> handle r now s m local = (r', o) -> In (Relay true m) o -> get c (r_peers r) = Some p -> meant m (p_type p) (p_synced p) = true ->
    exists k, k <= N.of_nat (length (wanted m r)) /\ get c (r_peers r') = Some (addq (now + gap m r * k) (mk_item m true) p).
  Proof.
    intros HI ND SH OW E IR G M.
    assert (MR : forall a h b ok o1, relay_msg_hash a h = (b, ok, o1) -> r_peers b = r_peers a /\ ~ In (Relay true m) o1).
    { intros a h b ok o1 R. apply relay_rel in R. destruct R as [r2 G2 ->|r2 G2 ->|G2]; split; try reflexivity; cbn; intuition discriminate. }
    unfold RelayModel.handle in E. unfold own in OW. destruct (m_kind m) eqn:K.
    - assert (NI : get (m_hash m) (r_info r) = None).
      { destruct (get (m_hash m) (r_info r)) eqn:GI; [|reflexivity]. exfalso. apply OW. destruct (q_seen _ _ _ HI) as (old & SE & _).
        assert (IH : In (m_hash m) (r_hashes r)) by (apply (q_keys _ _ _ HI); rewrite GI; discriminate).
        assert (IS : In (m_hash m) (seen o0)) by (rewrite SE; apply in_or_app; auto).
        unfold seen in IS. apply in_flat_map in IS as [x [X1 X2]]. destruct x; cbn in X2; try contradiction. destruct X2 as [<-|[]]. exact X1. }
      rewrite NI in E. destruct (relay_msg_hash r (m_hash m)) as [[r1 ok] o1] eqn:R. destruct (MR _ _ _ _ _ R) as [P1 N1].
      destruct ok; inversion E; subst; [|contradiction]. cbn [r_peers]. apply broadcast_queues; auto. intros x. unfold meant. rewrite K. destruct (p_type (snd x)); reflexivity.
    - subst local. destruct (relay_msg_hash r (m_hash m)) as [[r1 ok] o1] eqn:R. destruct (MR _ _ _ _ _ R) as [P1 N1].
      destruct ok; inversion E; subst; [|contradiction]. apply broadcast_queues; auto. intros x. unfold meant. rewrite K. destruct (p_type (snd x)), (p_synced (snd x)); reflexivity.
    - subst local. set (r0 := mk_router (r_info r) _ _ _ _ _ _ _ _) in E. destruct (true && (m_vdf m <=? r_vdf r0)); [inversion E; subst; destruct IR|].
      assert (IO : mem (m_key m) (r_ours r0) = true) by (apply mem_In; cbn; unfold add; destruct (mem (m_key m) (r_ours r)) eqn:ME; [apply mem_In; exact ME|cbn; auto]). rewrite IO in E.
      destruct (relay_msg_hash r0 (m_hash m)) as [[r1 ok] o1] eqn:R. destruct (MR _ _ _ _ _ R) as [P1 N1].
      destruct ok; inversion E; subst; [|contradiction]. cbn [r_peers]. apply broadcast_queues; auto. intros x. unfold meant. rewrite K. destruct (p_type (snd x)); reflexivity.
    - destruct (relay_msg_hash r (m_hash m)) as [[r1 ok] o1] eqn:R. destruct (MR _ _ _ _ _ R) as [P1 N1].
      destruct ok; inversion E; subst; [|contradiction]. apply broadcast_queues; auto. intros x. unfold meant. rewrite K. destruct (p_type (snd x)); reflexivity.
    - subst local. destruct (m_proof m); [|inversion E; subst; destruct IR]. destruct (relay_msg_hash r (m_hash m)) as [[r1 ok] o1] eqn:R. destruct (MR _ _ _ _ _ R) as [P1 N1].
      destruct ok; inversion E; subst; [|contradiction]. cbn [set_credit r_peers]. apply broadcast_queues; auto. intros x. unfold meant. rewrite K. destruct (p_type (snd x)); reflexivity.
    - destruct OW.
  Qed.

  (** it waits in the queue or has arrived *)
  Definition due (m : msg) (c T : N) (r : router) (l : list event) (o : list out) : Prop :=
    exists p, get c (r_peers r) = Some p /\ p_valid p = true /\
      (told c (m_hash m) l \/ sent_to c (m_hash m) o \/ exists t, t <= T /\ In (t, mk_item m true) (p_queue p)).
  Lemma step_due m c T r l o e r' o' : pinv r l o -> pinv r' (l ++ [e]) (o ++ o') -> shuffles e -> keeps c e -> due m c T r l o -> step r e = (r', o') -> due m c T r' (l ++ [e]) (o ++ o').
  Proof.
    intros PI PI' SH (K1 & K2 & K3) (p & G & V & W) E.
    assert (OLD : told c (m_hash m) l \/ sent_to c (m_hash m) o -> told c (m_hash m) (l ++ [e]) \/ sent_to c (m_hash m) (o ++ o')) by (intros [Z|Z]; [left; apply told_more|right; apply sent_more]; exact Z).
    assert (PE : peff r e r' o' -> due m c T r' (l ++ [e]) (o ++ o')).
    { intros [_ P]. specialize (P c). rewrite G in P. destruct P as (p' & G' & [Q1 Q2 Q3]). exists p'. split; [exact G'|]. split; [rewrite Q3; auto|].
      destruct W as [W|[W|(t & LT & W)]]; [left; apply told_more; exact W|right; left; apply sent_more; exact W|right; right]. exists t. split; [exact LT|].
      destruct Q2 as [->|(t2 & i2 & v & -> & _)]; [exact W|]. apply enqueue_old. exact W. }
    pose proof PI as [A _ _ _ _ _ _].
    destruct e as [now s m0 local|now s c0 m0|c0 h| |now ok|c0 ma|c0|c0|c0 t|c0 b]; cbn [RelayModel.step] in E.
    - apply PE. eapply handle_peff; [exact A| |exact E]. intros. apply SH. assumption.
    - apply PE. eapply msg_peff; [exact A| |exact E]. intros. apply SH. assumption.
    - inversion E; subst. apply PE, marks_peff, mark_marks. auto.
    - inversion E; subst. exists (trim_peer max_sent_cache p). split; [|split; [exact V|]].
      + cbn. rewrite get_map, G. reflexivity.
      + destruct W as [W|[W|W]]; [left; apply told_more; exact W|right; left; apply sent_more; exact W|right; right; exact W].
    - destruct (send_peers now ok (r_peers r)) as [l2 o2] eqn:E2. inversion E; subst. destruct (send_peers_get _ _ _ _ _ E2) as [_ GG]. specialize (GG A c). rewrite G in GG.
      destruct GG as (p' & oc & G' & SP & _). pose proof SP as SP'. unfold send_peer in SP. destruct (send_queue now (ok c) c p (p_queue p)) as [[p2 rest] oc2] eqn:SQ. inversion SP; subst.
      apply send_queue_spec in SQ as (A1 & _ & _ & _ & _ & _ & A7 & _). eexists. split; [exact G'|]. cbn [p_valid p_queue]. split; [congruence|].
      destruct W as [W|[W|(t & LT & W)]]; [left; apply told_more; exact W|right; left; apply sent_more; exact W|].
      destruct (A7 _ _ W) as [Z|Z]; [right; right; eauto|]. specialize (Z eq_refl V). cbn in Z.
      destruct (x_sent _ _ _ PI' c _ (m_hash m) G' Z); auto.
    - inversion E; subst. assert (NE : c0 =? c = false) by (apply N.eqb_neq; intros ->; apply (K3 ma); reflexivity). exists p. split; [|split; [exact V|]].
      + cbn [set_peers r_peers]. rewrite get_cons, NE, get_erase, N.eqb_sym, NE. exact G.
      + destruct W as [W|[W|W]]; [left; apply told_more; exact W|right; left; apply sent_more; exact W|right; right; exact W].
    - inversion E; subst. assert (NE : c0 =? c = false) by (apply N.eqb_neq; intros ->; apply K1; reflexivity). apply PE. apply upd_peff. intros q. cbn. split; [reflexivity|]. split; [reflexivity|]. intros X. congruence.
    - inversion E; subst. assert (NE : c0 =? c = false) by (apply N.eqb_neq; intros ->; apply K2; reflexivity). exists p. split; [|split; [exact V|]].
      + cbn [set_peers r_peers]. rewrite get_erase, N.eqb_sym, NE. exact G.
      + destruct W as [W|[W|W]]; [left; apply told_more; exact W|right; left; apply sent_more; exact W|right; right; exact W].
    - inversion E; subst. apply PE, upd_peff. intros q. cbn. auto.
    - inversion E; subst. apply PE, upd_peff. intros q. cbn. auto.
  Qed.
  Lemma run_split l e : run (l ++ [e]) = let '(r, o) := run l in let '(r', o') := step r e in (r', o ++ o').
  Proof. rewrite run_snoc. unfold step_out. destruct (run l). reflexivity. Qed.
  Lemma run_due m c T l1 l2 r o r2 o2 : Forall shuffles (l1 ++ l2) -> Forall (keeps c) l2 -> run l1 = (r, o) -> due m c T r l1 o -> run (l1 ++ l2) = (r2, o2) -> due m c T r2 (l1 ++ l2) o2.
  Proof.
    revert r2 o2. induction l2 as [|e l2 IH] using rev_ind; intros r2 o2 SH KP R D E.
    - rewrite app_nil_r in *. congruence.
    - rewrite app_assoc in *. apply Forall_app in SH as [SH1 SH2]. apply Forall_app in KP as [KP1 KP2]. inversion SH2; subst. inversion KP2; subst.
      pose proof E as E'. rewrite run_split in E'. destruct (run (l1 ++ l2)) as [r1 o1] eqn:E1. destruct (step r1 e) as [r3 o3] eqn:E3. inversion E'; subst.
      eapply step_due; [eapply run_pinv; [exact SH1|exact E1]|eapply run_pinv; [|exact E]; apply Forall_app; auto|assumption|assumption|apply (IH r1 o1); auto|exact E3].
  Qed.
  Lemma gap_le m r k : k <= N.of_nat (length (wanted m r)) -> gap m r * k <= relay_target.
  Proof.
    intros H. unfold RelaySpec.gap. set (n := N.of_nat _) in *. pose proof (N.mul_div_le relay_target (1 + n) ltac:(lia)). set (q := relay_target / (1 + n)) in *.
    assert (q * k <= q * n) by (apply N.mul_le_mono_l; exact H). lia.
  Qed.
  Theorem delivered l1 now s m local l2 t ok c p :
    Forall shuffles (l1 ++ EHandle now s m local :: l2) -> Forall (keeps c) l2 ->
    let '(r1, o1) := run l1 in let '(r2, o2) := run (l1 ++ EHandle now s m local :: l2 ++ [ESend t ok]) in
    own m local o1 -> In (Relay true m) (snd (step r1 (EHandle now s m local))) ->
    get c (r_peers r1) = Some p -> p_valid p = true -> meant m (p_type p) (p_synced p) = true ->
    (forall k i, k <= N.of_nat (length (wanted m r1)) -> ~ In (now + gap m r1 * k, i) (p_queue p)) -> now + relay_target < t ->
    told c (m_hash m) (l1 ++ EHandle now s m local :: l2) \/ sent_to c (m_hash m) o2.
  Proof.
    intros SH KP. destruct (run l1) as [r1 o1] eqn:R1. destruct (run (l1 ++ EHandle now s m local :: l2 ++ [ESend t ok])) as [r2 o2] eqn:R2.
    intros OW IR G V M FREE LT. destruct (step r1 (EHandle now s m local)) as [r3 o3] eqn:E3. cbn [snd] in IR.
    assert (S1 : Forall shuffles l1) by (apply Forall_app in SH; tauto). assert (S2 : shuffles (EHandle now s m local)) by (apply Forall_app in SH as [_ SH]; inversion SH; assumption).
    pose proof (run_pinv _ _ _ _ _ _ _ _ S1 R1) as PI. pose proof (run_hinv _ _ _ _ _ _ _ _ R1) as HI.
    destruct (handle_queues r1 o1 now s m local r3 o3 c p HI (x_nd _ _ _ PI) S2 OW E3 IR G M) as (k & KL & G3).
    set (e := EHandle now s m local) in *.
    assert (R3 : run (l1 ++ [e]) = (r3, o1 ++ o3)) by (rewrite run_split, R1, E3; reflexivity).
    assert (D3 : due m c (now + relay_target) r3 (l1 ++ [e]) (o1 ++ o3)).
    { eexists. split; [exact G3|]. split; [exact V|]. right. right. exists (now + gap m r1 * k). split; [pose proof (gap_le m r1 k KL); lia|].
      cbn [addq p_queue]. apply enqueue_new. destruct (get (now + gap m r1 * k) (p_queue p)) as [i|] eqn:GG; [exfalso; apply (FREE k i KL), get_in, GG|reflexivity]. }
    replace (l1 ++ e :: l2) with ((l1 ++ [e]) ++ l2) in * by (rewrite <- app_assoc; reflexivity).
    replace (l1 ++ e :: l2 ++ [ESend t ok]) with (((l1 ++ [e]) ++ l2) ++ [ESend t ok]) in R2 by (rewrite <- !app_assoc; reflexivity).
    assert (SH' : Forall shuffles (((l1 ++ [e]) ++ l2) ++ [ESend t ok])) by (apply Forall_app; split; [exact SH|repeat constructor]).
    pose proof (run_pinv _ _ _ _ _ _ _ _ SH' R2) as PI2.
    rewrite run_split in R2. destruct (run ((l1 ++ [e]) ++ l2)) as [r4 o4] eqn:R4.
    pose proof (run_due m c (now + relay_target) (l1 ++ [e]) l2 r3 (o1 ++ o3) r4 o4 SH KP R3 D3 R4) as (p4 & G4 & V4 & W).
    destruct (step r4 (ESend t ok)) as [r5 o5] eqn:E5. inversion R2; subst.
    destruct W as [W|[W|(t4 & LT4 & W)]]; [left; exact W|right; apply sent_more; exact W|].
    pose proof (run_pinv _ _ _ _ _ _ _ _ SH R4) as PI4. cbn [RelayModel.step] in E5. destruct (send_peers t ok (r_peers r4)) as [l5 o6] eqn:E6. inversion E5; subst.
    destruct (send_peers_get _ _ _ _ _ E6) as [_ GG]. specialize (GG (x_nd _ _ _ PI4) c). rewrite G4 in GG.
    destruct GG as (p' & oc & G' & SP & _). unfold send_peer in SP. destruct (send_queue t (ok c) c p4 (p_queue p4)) as [[p2 rest] oc2] eqn:SQ. inversion SP; subst.
    apply send_queue_spec in SQ as (_ & _ & _ & _ & _ & _ & A7 & A8). destruct (A8 (x_sorted _ _ _ PI4 c p4 G4)) as [_ A8'].
    destruct (A7 _ _ W) as [Z|Z]; [destruct (A8' _ _ Z); lia|]. specialize (Z eq_refl V4). cbn in Z.
    destruct (x_sent _ _ _ PI2 c _ (m_hash m) G' Z) as [Y|Y]; [|right; exact Y]. left.
    destruct Y as [Y|(n0 & s0 & m0 & Y & X)]; apply in_app_iff in Y as [Y|[Y|[]]]; try discriminate; [left|right; exists n0, s0, m0]; auto.
  Qed.
End P.
