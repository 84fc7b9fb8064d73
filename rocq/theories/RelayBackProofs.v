(** Proofs about RelayModel: nothing is sent to a peer that has it. *)
Require Import List Arith NArith Bool Lia.
Require Import Verif.FetchModel Verif.FetchProofs Verif.RelayModel Verif.RelaySpec Verif.RelayProofs Verif.RelayCreditProofs Verif.RelaySendProofs Verif.RelayDeliverProofs.
Import List ListNotations.
Open Scope N_scope.

(** what is known of a peer without its queue *)
Definition view (p : peer) : list N * list N * bool := (p_sent p, p_hashes p, p_master p).
Definition vmark (h : N) (v : list N * list N * bool) : list N * list N * bool :=
  let '(s, q, ma) := v in if mem h s then v else (h :: s, q ++ [h], ma).
Lemma view_mark h p : view (mark_sent h p) = vmark h (view p).
Proof. unfold view, vmark, mark_sent. destruct (mem h (p_sent p)); reflexivity. Qed.
Definition vw (c : N) (r : router) : option (list N * list N * bool) := option_map view (get c (r_peers r)).
Definition good (v : list N * list N * bool) : Prop := let '(s, q, _) := v in NoDup q /\ forall x, In x s <-> In x q.
Lemma good_mark h v : good v -> good (vmark h v).
Proof.
  destruct v as [[s q] ma]. intros [A B]. unfold vmark. destruct (mem h s) eqn:E; [split; assumption|].
  assert (NI : ~ In h s) by (intros H; apply mem_In in H; congruence). split.
  - apply nodup_snoc; [exact A|]. rewrite <- B. exact NI.
  - intros x. rewrite in_app_iff. cbn. rewrite B. tauto.
Qed.

Section P.
  Variables (max_hash_cache max_sent_cache : nat) (relay_target commit_delay : N) (do_relay : bool).
  Notation broadcast := (broadcast relay_target).
  Notation relay := (relay relay_target do_relay).
  Notation handle := (handle relay_target do_relay).
  Notation on_msg := (on_msg relay_target commit_delay do_relay).
  Notation step := (step max_hash_cache max_sent_cache relay_target commit_delay do_relay).
  Notation run := (run max_hash_cache max_sent_cache relay_target commit_delay do_relay).

  Lemma vw_peers c r r' : r_peers r' = r_peers r -> vw c r' = vw c r.
  Proof. unfold vw. intros ->. reflexivity. Qed.
  Lemma vw_queue_at x r c t i : vw x (queue_at r c t i) = vw x r.
  Proof.
    unfold vw. rewrite get_queue_at. destruct (x =? c); [|reflexivity]. destruct (get x (r_peers r)); reflexivity.
  Qed.
  Lemma vw_queue_all x l : forall r t n i, vw x (queue_all r l t n i) = vw x r.
  Proof. induction l as [|c l IH]; intros r t n i; [reflexivity|]. cbn [queue_all]. rewrite IH. apply vw_queue_at. Qed.
  Lemma vw_broadcast x r now s m f rl so : vw x (broadcast r now s m f rl so) = vw x r.
  Proof. apply vw_queue_all. Qed.
  Lemma vw_relay x r now s m f : vw x (relay r now s m f) = vw x r.
  Proof. unfold RelayModel.relay. destruct do_relay; [apply vw_broadcast|reflexivity]. Qed.
  Lemma vw_rel x r h r' ok o : relay_msg_hash r h = (r', ok, o) -> vw x r' = vw x r.
  Proof. intros R. apply relay_rel, rel_peers in R. apply vw_peers. exact R. Qed.
  Lemma vw_mark x r c h : vw x (mark r c h) = if x =? c then option_map (vmark h) (vw x r) else vw x r.
  Proof.
    unfold mark, vw. destruct (get c (r_peers r)) as [p|] eqn:G.
    - rewrite get_set_peer. destruct (x =? c) eqn:E; [|reflexivity]. apply N.eqb_eq in E. subst x. rewrite G. cbn [option_map]. rewrite view_mark. reflexivity.
    - destruct (x =? c) eqn:E; [|reflexivity]. apply N.eqb_eq in E. subst x. rewrite G. reflexivity.
  Qed.
  Lemma vw_rcv x r h c r' ok o : receive_msg_hash r h c = (r', ok, o) -> vw x r' = if x =? c then option_map (vmark h) (vw x r) else vw x r.
  Proof.
    unfold receive_msg_hash, note_hash. destruct (get h (r_info r)); intros H; inversion H; subst; rewrite vw_mark; reflexivity.
  Qed.
  Lemma vw_handle x r now s m local r' o : handle r now s m local = (r', o) -> vw x r' = vw x r.
  Proof.
    unfold RelayModel.handle. destruct (m_kind m).
    - set (io := match get (m_hash m) (r_info r) with Some _ => false | None => true end). clearbody io.
      destruct (relay_msg_hash r (m_hash m)) as [[r1 ok] o1] eqn:R. apply (vw_rel x) in R. intros [= <- <-].
      rewrite (vw_peers x (if ok then broadcast r1 now s m full_light io false else r1)) by reflexivity. destruct ok; rewrite ?vw_broadcast; exact R.
    - destruct (relay_msg_hash r (m_hash m)) as [[r1 ok] o1] eqn:R. apply (vw_rel x) in R. destruct ok; [destruct local|]; intros [= <- <-]; rewrite ?vw_broadcast, ?vw_relay; exact R.
    - set (r0 := if local then _ else r). assert (P0 : vw x r0 = vw x r) by (unfold r0; destruct local; reflexivity). clearbody r0.
      destruct (local && (m_vdf m <=? r_vdf r0)); [intros [= <- <-]; exact P0|].
      set (io := mem _ _). clearbody io. destruct (relay_msg_hash r0 (m_hash m)) as [[r1 ok] o1] eqn:R. apply (vw_rel x) in R. intros [= <- <-].
      rewrite (vw_peers x (if ok then broadcast r1 now s m full_light io false else r1)) by reflexivity. destruct ok; rewrite ?vw_broadcast; congruence.
    - destruct (relay_msg_hash r (m_hash m)) as [[r1 ok] o1] eqn:R. apply (vw_rel x) in R. destruct ok; intros [= <- <-]; rewrite ?vw_broadcast; exact R.
    - destruct (m_proof m); [|intros [= <- <-]; reflexivity].
      destruct (relay_msg_hash r (m_hash m)) as [[r1 ok] o1] eqn:R. apply (vw_rel x) in R. destruct ok; intros [= <- <-]; [|exact R].
      rewrite (vw_peers x (broadcast r1 now s m full local false)) by reflexivity. rewrite vw_broadcast. exact R.
    - destruct (relay_msg_hash r (m_hash m)) as [[r1 ok] o1] eqn:R. apply (vw_rel x) in R. destruct ok; intros [= <- <-]; rewrite ?vw_broadcast; exact R.
  Qed.
  Lemma vw_msg x r now s c m r' o : on_msg r now s c m = (r', o) ->
    (vw x r' = vw x r /\ ~ shows commit_delay c (m_hash m) r (ERecv now s c m)) \/ vw x r' = if x =? c then option_map (vmark (m_hash m)) (vw x r) else vw x r.
  Proof.
    assert (OT : forall r' o, (m_ok m = true -> shows commit_delay c (m_hash m) r (ERecv now s c m)) -> on_other r c m = (r', o) -> (vw x r' = vw x r /\ ~ m_ok m = true) \/ vw x r' = if x =? c then option_map (vmark (m_hash m)) (vw x r) else vw x r).
    { intros r2 o2 _. unfold on_other. destruct (m_ok m); cbn [negb]; [|intros [= <- <-]; left; split; [reflexivity|discriminate]].
      destruct (receive_msg_hash r (m_hash m) c) as [[r1 n] o1] eqn:R. apply (vw_rcv x) in R. intros [= <- <-]. auto. }
    assert (OT2 : forall r' o, (m_kind m = KTx \/ m_kind m = KProof \/ m_kind m = KVote) -> on_other r c m = (r', o) -> (vw x r' = vw x r /\ ~ shows commit_delay c (m_hash m) r (ERecv now s c m)) \/ vw x r' = if x =? c then option_map (vmark (m_hash m)) (vw x r) else vw x r).
    { intros r2 o2 K E. destruct (OT r2 o2) as [[A B]|A]; [|exact E| |auto].
      - intros OK. unfold shows. repeat split; auto. destruct K as [->|[->| ->]]; exact Logic.I.
      - left. split; [exact A|]. intros H. apply B. apply H. }
    unfold RelayModel.on_msg. destruct (m_kind m) eqn:K; try (apply OT2; auto).
    - unfold on_block. destruct (_ <? _) eqn:L.
      { intros [= <- <-]. left. split; [reflexivity|]. unfold shows. rewrite K. intros (_ & _ & _ & H). apply N.ltb_lt in L. lia. }
      destruct (m_ok m) eqn:OK; cbn [negb]; [|intros [= <- <-]; left; split; [reflexivity|intros (_ & _ & H & _); congruence]].
      destruct (receive_msg_hash r (m_hash m) c) as [[r1 n] o1] eqn:R. apply (vw_rcv x) in R. intros E. right. rewrite <- R. clear R.
      destruct n; [|inversion E; reflexivity]. destruct (negb (m_sig m)); [inversion E; reflexivity|].
      destruct (has_credit _ _); [|inversion E; reflexivity].
      match type of E with context [relay_msg_hash ?x _] => set (rx := x) in E end.
      destruct (relay_msg_hash rx (m_hash m)) as [[r3 ok] o3] eqn:R3. apply (vw_rel x) in R3. destruct ok; inversion E; subst; rewrite ?vw_relay; exact R3.
    - unfold on_vdf. destruct (_ <? _) eqn:L.
      { intros [= <- <-]. left. split; [reflexivity|]. unfold shows. rewrite K. intros (_ & _ & _ & H). apply N.ltb_lt in L. lia. }
      destruct (m_ok m) eqn:OK; cbn [negb]; [|intros [= <- <-]; left; split; [reflexivity|intros (_ & _ & H & _); congruence]].
      destruct (receive_msg_hash r (m_hash m) c) as [[r1 n] o1] eqn:R. apply (vw_rcv x) in R. intros E. right. rewrite <- R. clear R.
      destruct n; [|inversion E; reflexivity]. destruct (negb (m_sig m)); [inversion E; reflexivity|].
      destruct (m_short m); [|inversion E; reflexivity]. destruct (get (m_key m) (r_timelords r1)) as [k|]; [|inversion E; reflexivity].
      destruct (0 <? k); [|inversion E; reflexivity].
      destruct (relay_msg_hash r1 (m_hash m)) as [[r3 ok] o3] eqn:R3. apply (vw_rel x) in R3. destruct ok; inversion E; subst; [rewrite vw_relay|]; exact R3.
    - unfold on_vdf_point. destruct (get c (r_peers r)) as [p|] eqn:G.
      2:{ intros [= <- <-]. left. split; [reflexivity|]. unfold shows. rewrite K. intros (_ & _ & _ & p & H & _). congruence. }
      destruct (p_master p && m_ok m) eqn:B.
      + destruct (receive_msg_hash r (m_hash m) c) as [[r1 n] o1] eqn:R. apply (vw_rcv x) in R. intros [= <- <-]. right. exact R.
      + intros [= <- <-]. left. split; [reflexivity|]. unfold shows. rewrite K. intros (_ & _ & H & q & H2 & H3). rewrite G in H2. inversion H2; subst. rewrite H, H3 in B. discriminate.
  Qed.

  Lemma send_queue_view now ok c q : forall p p' rest o, send_queue now ok c p q = (p', rest, o) ->
    exists ms, o = map (Sent c) ms /\ p_hashes p' = p_hashes p ++ map m_hash ms /\ p_master p' = p_master p /\ (good (view p) -> good (view p')) /\ forall m, In m ms -> ~ In (m_hash m) (p_sent p).
  Proof.
    induction q as [|[t i] q IH]; intros p p' rest o E; cbn [send_queue] in E.
    - inversion E; subst. exists []. cbn [map]. rewrite app_nil_r. split; [reflexivity|]. split; [reflexivity|]. split; [reflexivity|]. split; [auto|]. intros m [].
    - destruct (t <? now); [|inversion E; subst; exists []; cbn [map]; rewrite app_nil_r; split; [reflexivity|]; split; [reflexivity|]; split; [reflexivity|]; split; [auto|]; intros m []].
      destruct (negb (mem (m_hash (i_msg i)) (p_sent p)) && send_item ok p i) eqn:C; [|apply IH in E; exact E].
      destruct (send_queue now ok c (mark_sent (m_hash (i_msg i)) p) q) as [[p2 r2] o2] eqn:E2. inversion E; subst p' rest o.
      apply andb_true_iff in C as [C1 C2]. apply negb_true_iff in C1. apply IH in E2 as (ms & A & B & D & F & G).
      assert (M : mark_sent (m_hash (i_msg i)) p = mk_peer (p_type p) (p_synced p) (p_valid p) (p_master p) (m_hash (i_msg i) :: p_sent p) (p_hashes p ++ [m_hash (i_msg i)]) (p_queue p)) by (unfold mark_sent; rewrite C1; reflexivity).
      exists (i_msg i :: ms). subst o2. split; [reflexivity|]. rewrite B, D. split; [rewrite M; cbn [p_hashes map]; rewrite <- app_assoc; reflexivity|].
      split; [rewrite M; reflexivity|]. split.
      + intros H. apply F. rewrite view_mark. apply good_mark. exact H.
      + intros m [<-|H]; [intros H; apply mem_In in H; congruence|]. intros H2. apply (G m H). rewrite M. cbn. auto.
  Qed.
  Lemma to_self c ms : filter (to c) (map (Sent c) ms) = map (Sent c) ms.
  Proof. induction ms as [|m ms IH]; [reflexivity|]. cbn [map filter to]. rewrite N.eqb_refl, IH. reflexivity. Qed.
  Lemma to_other c d ms : d <> c -> filter (to c) (map (Sent d) ms) = [].
  Proof. intros H. induction ms as [|m ms IH]; [reflexivity|]. cbn [map filter to]. rewrite IH. destruct (d =? c) eqn:E; [apply N.eqb_eq in E; contradiction|reflexivity]. Qed.
  Lemma send_peers_view now ok l : forall l' o, send_peers now ok l = (l', o) -> NoDup (map fst l) -> forall c,
    match get c l with
    | Some p => exists p' ms, get c l' = Some p' /\ filter (to c) o = map (Sent c) ms /\ p_hashes p' = p_hashes p ++ map m_hash ms /\ p_master p' = p_master p /\ (good (view p) -> good (view p')) /\
                              forall m, In m ms -> ~ In (m_hash m) (p_sent p)
    | None => get c l' = None /\ filter (to c) o = []
    end.
  Proof.
    induction l as [|[k v] l IH]; intros l' o E ND c; cbn [send_peers] in E.
    - inversion E; subst. cbn. auto.
    - destruct (send_peer now ok k v) as [v' o1] eqn:E1. destruct (send_peers now ok l) as [l2 o2] eqn:E2. inversion E; subst. inversion ND as [|? ? N1 N2]; subst.
      specialize (IH _ _ eq_refl N2 c). unfold send_peer in E1. destruct (send_queue now (ok k) k v (p_queue v)) as [[p2 q2] o3] eqn:E3. inversion E1; subst.
      apply send_queue_view in E3 as (ms & -> & B & D & F & G). rewrite !get_cons, filter_app. destruct (k =? c) eqn:Ek.
      + apply N.eqb_eq in Ek. subst k. assert (GN : get c l = None) by (apply get_key; exact N1). rewrite GN in IH. destruct IH as [_ ->]. rewrite app_nil_r, to_self.
        eexists _, ms. split; [reflexivity|]. split; [reflexivity|]. cbn [p_hashes p_master]. split; [exact B|]. split; [exact D|]. split; [exact F|exact G].
      + apply N.eqb_neq in Ek. rewrite (to_other c k) by exact Ek. cbn [app]. exact IH.
  Qed.

  (** all peers are in order, and master nodes were connected as such *)
  Definition binv (r : router) (l : list event) : Prop :=
    forall c p, get c (r_peers r) = Some p -> good (view p) /\ (p_master p = true -> In (EConnect c true) l).
  Lemma vw_in c r p : get c (r_peers r) = Some p -> vw c r = Some (view p).
  Proof. unfold vw. intros ->. reflexivity. Qed.
  Lemma vw_some c r v : vw c r = Some v -> exists p, get c (r_peers r) = Some p /\ view p = v.
  Proof. unfold vw. destruct (get c (r_peers r)) as [p|]; [|discriminate]. intros [= <-]. eauto. Qed.
  Lemma good_trim p : good (view p) -> good (view (trim_peer max_sent_cache p)).
  Proof.
    intros [A B]. unfold trim_peer, view, good. cbn [p_sent p_hashes]. set (n := (length (p_hashes p) - max_sent_cache)%nat). rewrite <- (firstn_skipn n (p_hashes p)) in A.
    split; [clear -A; induction (firstn n (p_hashes p)) as [|y l IH]; [exact A|]; apply IH; cbn in A; inversion A; assumption|]. intros x. rewrite filter_In, B, negb_true_iff.
    rewrite <- (firstn_skipn n (p_hashes p)) at 1. rewrite in_app_iff. split.
    - intros [[H|H] M]; [|exact H]. apply mem_In in H. congruence.
    - intros H. split; [auto|]. destruct (mem x (firstn n (p_hashes p))) eqn:M; [|reflexivity]. apply mem_In in M. exfalso. clear -A H M.
      induction (firstn n (p_hashes p)) as [|y l IH]; [destruct M|]. cbn in A. inversion A; subst. destruct M as [<-|M]; [apply H2, in_or_app; auto|apply IH; assumption].
  Qed.

  (** what a step does to a connection that stays *)
  Lemma upd_view r d f c p : (forall p, view (f p) = view p) -> get c (r_peers r) = Some p -> exists p', get c (r_peers (upd r d f)) = Some p' /\ view p' = view p.
  Proof.
    intros H G. apply vw_some. unfold vw, upd. destruct (get d (r_peers r)) as [q|] eqn:Gd; [|rewrite G; reflexivity].
    rewrite get_set_peer. destruct (c =? d) eqn:E; [|rewrite G; reflexivity]. apply N.eqb_eq in E. subst d. rewrite G in Gd. inversion Gd; subst. rewrite G. cbn. rewrite H. reflexivity.
  Qed.
  Lemma upd_view2 r d f c p' : (forall p, view (f p) = view p) -> get c (r_peers (upd r d f)) = Some p' -> exists p, get c (r_peers r) = Some p /\ view p' = view p.
  Proof.
    intros H G. apply vw_in in G. unfold vw, upd in G. destruct (get d (r_peers r)) as [q|] eqn:Gd.
    - rewrite get_set_peer in G. destruct (c =? d) eqn:E.
      + apply N.eqb_eq in E. subst d. rewrite Gd in *. cbn [option_map] in G. exists q. split; [reflexivity|]. rewrite <- (H q). congruence.
      + destruct (get c (r_peers r)) as [p|]; [|discriminate]. cbn [option_map] in G. exists p. split; [reflexivity|congruence].
    - destruct (get c (r_peers r)) as [p|]; [|discriminate]. cbn [option_map] in G. exists p. split; [reflexivity|congruence].
  Qed.

  Lemma in_snoc {A} (x y : A) l : In x l -> In x (l ++ [y]). Proof. intros. apply in_or_app. auto. Qed.
  Lemma step_binv r l o e r' o' : pinv r l o -> binv r l -> step r e = (r', o') -> binv r' (l ++ [e]).
  Proof.
    intros PI BI E. pose proof (x_nd _ _ _ PI) as ND.
    assert (VW : (forall c, vw c r' = vw c r \/ exists h, vw c r' = option_map (vmark h) (vw c r)) -> binv r' (l ++ [e])).
    { intros H c p G. apply vw_in in G. specialize (H c). rewrite G in H. destruct H as [H|[h H]].
      - symmetry in H. apply vw_some in H as (p0 & G0 & V0). destruct (BI c p0 G0) as [B1 B2]. rewrite V0 in B1. split; [exact B1|].
        intros M. apply in_snoc, B2. unfold view in V0. inversion V0. congruence.
      - destruct (vw c r) as [v|] eqn:V; [|discriminate]. cbn in H. inversion H as [H']. apply vw_some in V as (p0 & G0 & V0). destruct (BI c p0 G0) as [B1 B2].
        rewrite H'. split; [apply good_mark; subst v; exact B1|]. intros M. apply in_snoc, B2. unfold view in V0. subst v. unfold vmark, view in H'. destruct (mem h (p_sent p0)); inversion H'; congruence. }
    assert (UP : forall d f, (forall p, view (f p) = view p) -> r' = upd r d f -> binv r' (l ++ [e])).
    { intros d f H ->. intros c p G. apply upd_view2 in G as (p0 & G0 & V0); [|exact H]. destruct (BI c p0 G0) as [B1 B2]. rewrite V0. split; [exact B1|].
      intros M. apply in_snoc, B2. unfold view in V0. inversion V0. congruence. }
    destruct e as [now s m local|now s c m|c h| |now ok|c ma|c|c|c t|c b]; cbn [RelayModel.step] in E.
    - apply VW. intros x. left. eapply vw_handle. exact E.
    - apply VW. intros x. destruct (vw_msg x _ _ _ _ _ _ _ E) as [[H _]|H]; [auto|]. destruct (x =? c); eauto.
    - inversion E; subst. apply VW. intros x. rewrite vw_mark. destruct (x =? c); eauto.
    - inversion E; subst. intros c p G. cbn in G. rewrite get_map in G. destruct (get c (r_peers r)) as [p0|] eqn:G0; [|discriminate]. cbn in G. inversion G; subst.
      destruct (BI c p0 G0) as [B1 B2]. split; [apply good_trim; exact B1|]. intros M. apply in_snoc, B2, M.
    - destruct (send_peers now ok (r_peers r)) as [l2 o2] eqn:E2. inversion E; subst. intros c p G. cbn in G. pose proof (send_peers_view _ _ _ _ _ E2 ND c) as H.
      destruct (get c (r_peers r)) as [p0|] eqn:G0; [|destruct H; congruence]. destruct H as (p' & ms & H1 & _ & _ & H2 & H3 & _). rewrite G in H1. inversion H1; subst.
      destruct (BI c p0 G0) as [B1 B2]. split; [auto|]. intros M. apply in_snoc, B2. congruence.
    - inversion E; subst. intros x p G. cbn [set_peers r_peers] in G. rewrite get_cons, get_erase in G. destruct (c =? x) eqn:Ex.
      + apply N.eqb_eq in Ex. subst x. inversion G; subst. split; [split; [constructor|tauto]|]. cbn. intros ->. apply in_or_app. cbn. auto.
      + destruct (x =? c); [discriminate|]. destruct (BI x p G) as [B1 B2]. split; [exact B1|]. intros M. apply in_snoc, B2, M.
    - inversion E; subst. eapply UP; [|reflexivity]. reflexivity.
    - inversion E; subst. intros x p G. cbn [set_peers r_peers] in G. rewrite get_erase in G. destruct (x =? c); [discriminate|].
      destruct (BI x p G) as [B1 B2]. split; [exact B1|]. intros M. apply in_snoc, B2, M.
    - inversion E; subst. eapply UP; [|reflexivity]. reflexivity.
    - inversion E; subst. eapply UP; [|reflexivity]. reflexivity.
  Qed.
  Lemma run_binv l r o : Forall shuffles l -> run l = (r, o) -> binv r l.
  Proof.
    revert r o. induction l as [|e l IH] using rev_ind; intros r o SH E.
    - inversion E; subst. intros c p G. discriminate.
    - rewrite run_split in E. apply Forall_app in SH as [SH1 SH2]. destruct (run l) as [r1 o1] eqn:E1. destruct (step r1 e) as [r2 o2] eqn:E2. inversion E; subst.
      eapply step_binv; [eapply run_pinv; [exact SH1|exact E1]|eapply IH; eauto|exact E2].
  Qed.

  Definition known (c h : N) (n : nat) (r : router) : Prop :=
    exists p a b, get c (r_peers r) = Some p /\ p_hashes p = a ++ h :: b /\ (length b <= n)%nat.
  Lemma known_view c h n r p v : get c (r_peers r) = Some p -> view p = v -> (exists a b, snd (fst v) = a ++ h :: b /\ (length b <= n)%nat) -> known c h n r.
  Proof. intros G V (a & b & A & B). exists p, a, b. subst v. auto. Qed.
  Lemma not_sent r e r' o c : step r e = (r', o) -> (forall now ok, e <> ESend now ok) -> (forall b, e <> EConnect c b) -> forall m, ~ In (Sent c m) o.
  Proof.
    intros E H1 H2 m H. apply step_ceff in E. destruct (c_from _ _ _ _ E _ H) as [(now & ok & ->)|[b ->]]; [apply (H1 now ok)|apply (H2 b)]; reflexivity.
  Qed.
  Lemma step_known r l o e r' o' c h n : pinv r l o -> binv r l -> stays c e -> known c h n r -> (n < max_sent_cache)%nat -> step r e = (r', o') ->
    known c h (n + b1 (from c e) + count (to c) o') r' /\ forall m, In (Sent c m) o' -> m_hash m <> h.
  Proof.
    intros PI BI [S1 S2] (p & a & b & G & A & B) LT E. pose proof (x_nd _ _ _ PI) as ND. destruct (BI c p G) as [[G1 G2] _]. fold (p_sent p) in G2.
    assert (NS : (forall now ok, e <> ESend now ok) -> forall m, In (Sent c m) o' -> m_hash m <> h).
    { intros H m Y. exfalso. exact (not_sent _ _ _ _ _ E H S2 m Y). }
    assert (SM : forall p', get c (r_peers r') = Some p' -> view p' = view p -> known c h (n + b1 (from c e) + count (to c) o') r').
    { intros p' H V. exists p', a, b. split; [exact H|]. unfold view in V. inversion V as [[V1 V2 V3]]. rewrite V2. split; [exact A|lia]. }
    assert (VS : vw c r' = vw c r -> known c h (n + b1 (from c e) + count (to c) o') r').
    { intros V. rewrite (vw_in _ _ _ G) in V. apply vw_some in V as (p' & H & V). eauto. }
    assert (VM : forall k, from c e = true -> vw c r' = option_map (vmark k) (vw c r) -> known c h (n + b1 (from c e) + count (to c) o') r').
    { intros k F V. rewrite (vw_in _ _ _ G) in V. cbn [option_map] in V. unfold view at 1, vmark in V. destruct (mem k (p_sent p)).
      - apply vw_some in V as (p' & H & V). eapply SM; [exact H|]. exact V.
      - apply vw_some in V as (p' & H & V). eapply known_view; [exact H|exact V|]. cbn [fst snd]. exists a, (b ++ [k]). rewrite A, <- app_assoc. split; [reflexivity|].
        rewrite app_length, F. cbn. lia. }
    destruct e as [now s m local|now s d m|d k| |now ok|d ma|d|d|d t|d bb]; cbn [RelayModel.step] in E.
    - split; [|apply NS; discriminate]. apply VS. eapply vw_handle. exact E.
    - split; [|apply NS; discriminate]. destruct (vw_msg c _ _ _ _ _ _ _ E) as [[H _]|H]; [auto|]. destruct (c =? d) eqn:Ed; [|auto].
      eapply VM; [|exact H]. cbn. rewrite N.eqb_sym. exact Ed.
    - split; [|apply NS; discriminate]. inversion E; subst. pose proof (vw_mark c r d k) as H. destruct (c =? d) eqn:Ed; [|auto].
      eapply VM; [|exact H]. cbn. rewrite N.eqb_sym. exact Ed.
    - split; [|apply NS; discriminate]. inversion E; subst. clear VS VM SM NS. exists (trim_peer max_sent_cache p). cbn. rewrite get_map, G. cbn [option_map trim_peer p_hashes].
      rewrite A, app_length. cbn [length]. set (k := (length a + S (length b) - max_sent_cache)%nat). exists (skipn k a), b.
      split; [reflexivity|]. split; [|lia]. rewrite skipn_app. replace (k - length a)%nat with 0%nat by lia. reflexivity.
    - destruct (send_peers now ok (r_peers r)) as [l2 o2] eqn:E2. inversion E; subst. pose proof (send_peers_view _ _ _ _ _ E2 ND c) as H. rewrite G in H.
      destruct H as (p' & ms & H1 & H2 & H3 & _ & _ & H4). split.
      + exists p', a, (b ++ map m_hash ms). split; [exact H1|]. rewrite H3, A, <- app_assoc. split; [reflexivity|]. unfold count. rewrite H2, app_length, !map_length. lia.
      + intros m Y EQ. assert (Y2 : In (Sent c m) (filter (to c) o')) by (apply filter_In; split; [exact Y|cbn; apply N.eqb_refl]).
        rewrite H2 in Y2. apply in_map_iff in Y2 as (m' & M1 & M2). inversion M1; subst m'. apply (H4 m M2). apply G2. rewrite A, EQ. apply in_or_app. cbn. auto.
    - split; [|apply NS; discriminate]. inversion E; subst. assert (NE : d =? c = false) by (apply N.eqb_neq; intros ->; apply (S2 ma); reflexivity).
      eapply SM; [|reflexivity]. cbn [set_peers r_peers]. rewrite get_cons, NE, get_erase, N.eqb_sym, NE. exact G.
    - split; [|apply NS; discriminate]. inversion E; subst. destruct (upd_view r d (fun p => mk_peer (p_type p) (p_synced p) false (p_master p) (p_sent p) (p_hashes p) (p_queue p)) c p) as (p' & H & V); [reflexivity|exact G|]. eauto.
    - split; [|apply NS; discriminate]. inversion E; subst. assert (NE : d =? c = false) by (apply N.eqb_neq; intros ->; apply S1; reflexivity).
      eapply SM; [|reflexivity]. cbn [set_peers r_peers]. rewrite get_erase, N.eqb_sym, NE. exact G.
    - split; [|apply NS; discriminate]. inversion E; subst. destruct (upd_view r d (fun p => mk_peer t (p_synced p) (p_valid p) (p_master p) (p_sent p) (p_hashes p) (p_queue p)) c p) as (p' & H & V); [reflexivity|exact G|]. eauto.
    - split; [|apply NS; discriminate]. inversion E; subst. destruct (upd_view r d (fun p => mk_peer (p_type p) bb (p_valid p) (p_master p) (p_sent p) (p_hashes p) (p_queue p)) c p) as (p' & H & V); [reflexivity|exact G|]. eauto.
  Qed.

  Lemma run_known l1 r0 o0 c h n l2 : Forall shuffles (l1 ++ l2) -> run l1 = (r0, o0) -> known c h n r0 -> Forall (stays c) l2 ->
    forall r o, run (l1 ++ l2) = (r, o) -> exists o2, o = o0 ++ o2 /\ ((n + count (from c) l2 + count (to c) o2 < max_sent_cache)%nat -> known c h (n + count (from c) l2 + count (to c) o2) r) /\
      ((n + count (from c) l2 + count (to c) o2 <= max_sent_cache)%nat -> ~ sent_to c h o2).
  Proof.
    intros SH R K. induction l2 as [|e l2 IH] using rev_ind; intros ST r o E.
    - rewrite app_nil_r in E. rewrite R in E. inversion E; subst. exists []. rewrite app_nil_r. split; [reflexivity|]. cbn. rewrite !Nat.add_0_r. split; [auto|].
      intros _ (m & [] & _).
    - rewrite app_assoc in *. apply Forall_app in SH as [SH1 SH2]. apply Forall_app in ST as [ST1 ST2]. inversion ST2; subst.
      rewrite run_split in E. destruct (run (l1 ++ l2)) as [r1 o1] eqn:E1. destruct (step r1 e) as [r2 o2] eqn:E2. inversion E; subst.
      destruct (IH SH1 ST1 _ _ eq_refl) as (ox & -> & K1 & K2). exists (ox ++ o2). rewrite app_assoc. split; [reflexivity|].
      rewrite !count_app. replace (count (from c) [e]) with (b1 (from c e)) by (unfold count; cbn; destruct (from c e); reflexivity).
      pose proof (run_pinv _ _ _ _ _ _ _ _ SH1 E1) as PI. pose proof (run_binv _ _ _ SH1 E1) as BI.
      assert (ST' : known c h (n + count (from c) l2 + count (to c) ox) r1 -> (n + count (from c) l2 + count (to c) ox < max_sent_cache)%nat ->
                   known c h (n + count (from c) l2 + count (to c) ox + b1 (from c e) + count (to c) o2) r /\ forall m, In (Sent c m) o2 -> m_hash m <> h).
      { intros KN LT. eapply step_known; eauto. }
      split.
      + intros L. destruct ST' as [KN _]; [apply K1; lia|lia|]. replace (n + (count (from c) l2 + b1 (from c e)) + (count (to c) ox + count (to c) o2))%nat with (n + count (from c) l2 + count (to c) ox + b1 (from c e) + count (to c) o2)%nat by lia. exact KN.
      + intros L (m & H & EQ). apply in_app_iff in H as [H|H]; [apply K2; [lia|]; exists m; auto|].
        assert (C1 : (1 <= count (to c) o2)%nat).
        { unfold count. destruct (filter (to c) o2) eqn:F; [|cbn; lia]. assert (Y : In (Sent c m) (filter (to c) o2)) by (apply filter_In; split; [exact H|cbn; apply N.eqb_refl]). rewrite F in Y. destruct Y. }
        destruct ST' as [_ NO]; [apply K1; lia|lia|]. exact (NO m H EQ).
  Qed.

  Theorem not_back l1 e l2 r1 o1 r2 o2 c h p :
    Forall shuffles (l1 ++ e :: l2) -> run l1 = (r1, o1) -> step r1 e = (r2, o2) -> get c (r_peers r1) = Some p -> Forall (stays c) l2 ->
    (shows commit_delay c h r1 e /\ ~ told c h l1 /\ ~ sent_to c h o1) \/ ((exists now ok, e = ESend now ok) /\ sent_to c h o2) ->
    forall r3 o3, run (l1 ++ e :: l2) = (r3, o1 ++ o2 ++ o3) -> (count (from c) l2 + count (to c) (o2 ++ o3) <= max_sent_cache)%nat -> ~ sent_to c h o3.
  Proof.
    intros SH R1 S2 G ST KN r3 o3 R3 L.
    assert (SH1 : Forall shuffles l1) by (apply Forall_app in SH; tauto).
    pose proof (run_pinv _ _ _ _ _ _ _ _ SH1 R1) as PI. pose proof (run_binv _ _ _ SH1 R1) as BI.
    assert (R2 : run (l1 ++ [e]) = (r2, o1 ++ o2)) by (rewrite run_split, R1, S2; reflexivity).
    assert (K : known c h (count (to c) o2) r2).
    { destruct KN as [(S & T1 & T2)|[(now & ok & ->) (m & M1 & M2)]].
      - assert (NI : ~ In h (p_sent p)) by (intros Y; destruct (x_sent _ _ _ PI c p h G Y); contradiction).
        assert (V : vw c r2 = option_map (vmark h) (vw c r1)).
        { destruct e as [now s m local|now s d m|d k| |now ok|d ma|d|d|d t|d bb]; try destruct S; cbn [RelayModel.step] in S2.
          - subst d. pose proof H0 as (HH & _ & _). destruct (vw_msg c _ _ _ _ _ _ _ S2) as [[_ NO]|V].
            + exfalso. apply NO. unfold shows. split; [reflexivity|]. split; [reflexivity|]. tauto.
            + rewrite N.eqb_refl, HH in V. exact V.
          - subst d k. inversion S2; subst. rewrite vw_mark, N.eqb_refl. reflexivity. }
        rewrite (vw_in _ _ _ G) in V. cbn [option_map] in V. unfold view, vmark in V. destruct (mem h (p_sent p)) eqn:M; [apply mem_In in M; contradiction|].
        apply vw_some in V as (p' & H & V). eapply known_view; [exact H|exact V|]. cbn [fst snd]. exists (p_hashes p), []. cbn. split; [reflexivity|lia].
      - cbn [RelayModel.step] in S2. destruct (send_peers now ok (r_peers r1)) as [lx ox] eqn:E2. inversion S2; subst. pose proof (send_peers_view _ _ _ _ _ E2 (x_nd _ _ _ PI) c) as H. rewrite G in H.
        destruct H as (p' & ms & H1 & H2 & H3 & _). assert (Y : In m ms).
        { assert (Y2 : In (Sent c m) (filter (to c) o2)) by (apply filter_In; split; [exact M1|cbn; apply N.eqb_refl]). rewrite H2 in Y2. apply in_map_iff in Y2 as (m' & X1 & X2). inversion X1; subst. exact X2. }
        apply in_split in Y as (m1 & m2 & ->). exists p', (p_hashes p ++ map m_hash m1), (map m_hash m2). split; [exact H1|]. rewrite H3, map_app. cbn [map]. split; [rewrite app_assoc; reflexivity|].
        unfold count. rewrite H2, !map_length, app_length. cbn. lia. }
    change (l1 ++ e :: l2) with (l1 ++ [e] ++ l2) in SH, R3. rewrite app_assoc in SH, R3.
    destruct (run_known (l1 ++ [e]) r2 (o1 ++ o2) c h (count (to c) o2) l2 SH R2 K ST _ _ R3) as (ox & EQ & _ & NO).
    rewrite <- app_assoc in EQ. apply app_inv_head, app_inv_head in EQ. subst ox. apply NO. rewrite count_app in L. lia.
  Qed.

  Theorem points_from_masters l r o m : Forall shuffles l -> run l = (r, o) -> In (Publish m) o -> m_kind m = KPoint -> exists now s c, In (ERecv now s c m) l /\ In (EConnect c true) l.
  Proof.
    revert r o. induction l as [|e l IH] using rev_ind; intros r o SH E H K.
    - inversion E; subst. destruct H.
    - rewrite run_split in E. apply Forall_app in SH as [SH1 SH2]. destruct (run l) as [r1 o1] eqn:E1. destruct (step r1 e) as [r2 o2] eqn:E2. inversion E; subst.
      apply in_app_iff in H as [H|H].
      + destruct (IH _ _ SH1 eq_refl H K) as (now & s & c & A & B). exists now, s, c. split; apply in_snoc; assumption.
      + pose proof (step_ceff _ _ _ _ _ _ _ _ _ E2) as CE. destruct (c_from _ _ _ _ CE _ H) as (now & s & c & -> & _). exists now, s, c. split; [apply in_or_app; cbn; auto|].
        cbn [RelayModel.step] in E2. unfold RelayModel.on_msg in E2. rewrite K in E2. unfold on_vdf_point in E2. destruct (get c (r_peers r1)) as [p|] eqn:G; [|inversion E2; subst; destruct H].
        destruct (p_master p) eqn:M; cbn [andb] in E2; [|inversion E2; subst; destruct H]. apply in_snoc. destruct (run_binv _ _ _ SH1 E1 c p G) as [_ B]. apply B. exact M.
  Qed.
End P.
