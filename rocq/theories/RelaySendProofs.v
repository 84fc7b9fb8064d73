(** Proofs about RelayModel: what is sent to whom. *)
Require Import List Arith NArith Bool Lia Sorted.
Require Import Verif.FetchModel Verif.FetchProofs Verif.RelayModel Verif.RelaySpec Verif.RelayProofs Verif.RelayCreditProofs.
Import List ListNotations.
Open Scope N_scope.

Definition addq (t : N) (i : item) (p : peer) : peer :=
  mk_peer (p_type p) (p_synced p) (p_valid p) (p_master p) (p_sent p) (p_hashes p) (enqueue t i (p_queue p)).
Definition is_item (h : N) (e : N * item) : bool := (m_hash (i_msg (snd e)) =? h) && negb (kind_eqb (m_kind (i_msg (snd e))) KVdf).
Definition before (a b : N * item) : Prop := fst a < fst b.

Lemma enqueue_in t i q e : In e (enqueue t i q) -> e = (t, i) \/ In e q.
Proof.
  induction q as [|[t' i'] q IH]; cbn; [intuition|]. destruct (t =? t'); [cbn; auto|]. destruct (t <? t'); cbn; intuition.
Qed.
Lemma enqueue_old t i q e : In e q -> In e (enqueue t i q).
Proof.
  induction q as [|[t' i'] q IH]; cbn; [intros []|]. destruct (t =? t'); [cbn; auto|]. destruct (t <? t'); cbn; intuition.
Qed.
Lemma enqueue_new t i q : get t q = None -> In (t, i) (enqueue t i q).
Proof.
  induction q as [|[t' i'] q IH]; cbn [enqueue]; [cbn; auto|]. rewrite get_cons, (N.eqb_sym t' t). destruct (t =? t'); [discriminate|]. intros G.
  destruct (t <? t'); cbn; auto.
Qed.
Lemma enqueue_count h t i q : (count (is_item h) (enqueue t i q) <= count (is_item h) q + b1 (is_item h (t, i)))%nat.
Proof.
  unfold count. induction q as [|[t' i'] q IH]; cbn [enqueue].
  - cbn [filter]. destruct (is_item h (t, i)); cbn; lia.
  - destruct (t =? t'); [cbn [filter]; lia|]. destruct (t <? t'); cbn [filter].
    + destruct (is_item h (t, i)), (is_item h (t', i')); cbn; lia.
    + destruct (is_item h (t', i')); cbn [length]; lia.
Qed.
Lemma enqueue_sorted t i q : StronglySorted before q -> StronglySorted before (enqueue t i q).
Proof.
  induction 1 as [|[t' i'] q H IH F]; cbn [enqueue]; [repeat constructor|].
  destruct (t =? t') eqn:E; [constructor; auto|]. apply N.eqb_neq in E. destruct (t <? t') eqn:L.
  - apply N.ltb_lt in L. constructor; [constructor; auto|]. constructor; [exact L|].
    rewrite Forall_forall in *. intros x X. specialize (F x X). unfold before in *. cbn [fst] in *. lia.
  - apply N.ltb_ge in L. constructor; [exact IH|]. rewrite Forall_forall in *. intros x X. apply enqueue_in in X as [->|X]; [|auto]. unfold before. cbn. lia.
Qed.

Lemma send_queue_spec now ok c q : forall p p' rest o, send_queue now ok c p q = (p', rest, o) ->
  p_valid p' = p_valid p /\ p_type p' = p_type p /\ p_synced p' = p_synced p /\
  (forall h, In h (p_sent p') <-> In h (p_sent p) \/ sent_to c h o) /\
  (forall x, In x o -> exists t i, x = Sent c (i_msg i) /\ In (t, i) q) /\
  (forall h, count (is_sent c h) o + count (is_item h) rest <= count (is_item h) q)%nat /\
  (forall t i, In (t, i) q -> In (t, i) rest \/ (i_reliable i = true -> p_valid p = true -> In (m_hash (i_msg i)) (p_sent p'))) /\
  (StronglySorted before q -> StronglySorted before rest /\ forall t i, In (t, i) rest -> now <= t /\ In (t, i) q).
Proof.
  induction q as [|[t i] q IH]; intros p p' rest o E; cbn [send_queue] in E.
  - inversion E; subst. repeat split; auto; try (intros ? []); try (intros [H|(m & [] & _)]; exact H); try (intros; contradiction).
  - destruct (t <? now) eqn:L.
    + destruct (negb (mem (m_hash (i_msg i)) (p_sent p)) && send_item ok p i) eqn:C.
      * destruct (send_queue now ok c (mark_sent (m_hash (i_msg i)) p) q) as [[p2 r2] o2] eqn:E2. inversion E; subst p' rest o.
        apply andb_true_iff in C as [C1 C2]. apply negb_true_iff in C1.
        assert (M : mark_sent (m_hash (i_msg i)) p = mk_peer (p_type p) (p_synced p) (p_valid p) (p_master p) (m_hash (i_msg i) :: p_sent p) (p_hashes p ++ [m_hash (i_msg i)]) (p_queue p)) by (unfold mark_sent; rewrite C1; reflexivity).
        apply IH in E2 as (A1 & A2 & A3 & A4 & A5 & A6 & A7 & A8). rewrite M in *. cbn [p_valid p_type p_synced p_sent] in *.
        split; [exact A1|]. split; [exact A2|]. split; [exact A3|]. split; [|split; [|split; [|split]]].
        -- intros h. rewrite A4. cbn. split.
           ++ intros [[<-|H]|(m & H & X)]; auto; right; [exists (i_msg i)|exists m]; cbn; auto.
           ++ intros [H|(m & [X|H] & Y)]; auto; [inversion X; subst; auto|]. right. exists m. auto.
        -- intros x [<-|H]; [exists t, i; cbn; auto|]. destruct (A5 x H) as (t2 & i2 & X & Y). exists t2, i2. cbn. auto.
        -- intros h. specialize (A6 h). unfold count in *. cbn [filter is_sent]. rewrite N.eqb_refl. cbn [andb]. unfold is_item at 2. cbn [snd].
           destruct ((m_hash (i_msg i) =? h) && negb (kind_eqb (m_kind (i_msg i)) KVdf)); cbn [length]; lia.
        -- intros t2 i2 [X|H]; [|apply A7; exact H]. inversion X; subst. right. intros _ _. apply A4. cbn. auto.
        -- intros S. inversion S; subst. destruct (A8 H1) as [B1 B2]. split; [exact B1|]. intros t2 i2 H. destruct (B2 t2 i2 H). cbn. auto.
      * apply IH in E as (A1 & A2 & A3 & A4 & A5 & A6 & A7 & A8).
        split; [exact A1|]. split; [exact A2|]. split; [exact A3|]. split; [exact A4|]. split; [|split; [|split]].
        -- intros x H. destruct (A5 x H) as (t2 & i2 & X & Y). exists t2, i2. cbn. auto.
        -- intros h. specialize (A6 h). unfold count in *. cbn [filter]. destruct (is_item h (t, i)); cbn [length]; lia.
        -- intros t2 i2 [X|H]; [|apply A7; exact H]. inversion X; subst. right. intros R V. apply andb_false_iff in C as [C|C].
           ++ apply negb_false_iff, mem_In in C. apply A4. auto.
           ++ unfold send_item in C. rewrite R, V in C. discriminate.
        -- intros S. inversion S; subst. destruct (A8 H1) as [B1 B2]. split; [exact B1|]. intros t2 i2 H. destruct (B2 t2 i2 H). cbn. auto.
    + inversion E; subst. apply N.ltb_ge in L. split; [reflexivity|]. split; [reflexivity|]. split; [reflexivity|]. split; [|split; [|split; [|split]]].
      * intros h. split; [auto|]. intros [H|(m & [] & _)]. exact H.
      * intros x [].
      * intros h. cbn. lia.
      * intros t2 i2 H. auto.
      * intros S. split; [exact S|]. intros t2 i2 H. split; [|exact H]. inversion S as [|? ? S1 F]; subst. destruct H as [H|H]; [inversion H; subst; exact L|].
        rewrite Forall_forall in F. specialize (F _ H). unfold before in F. cbn in F. lia.
Qed.

Section P.
  Variables (max_hash_cache max_sent_cache : nat) (relay_target commit_delay : N) (do_relay : bool).
  Notation broadcast := (broadcast relay_target).
  Notation relay := (relay relay_target do_relay).
  Notation handle := (handle relay_target do_relay).
  Notation on_msg := (on_msg relay_target commit_delay do_relay).
  Notation step := (step max_hash_cache max_sent_cache relay_target commit_delay do_relay).
  Notation run := (run max_hash_cache max_sent_cache relay_target commit_delay do_relay).

  Definition keys (r : router) : list N := map fst (r_peers r).
  Lemma get_set_peer x r c p : get x (r_peers (set_peer r c p)) = if x =? c then option_map (fun _ => p) (get x (r_peers r)) else get x (r_peers r).
  Proof.
    unfold set_peer. cbn [r_peers]. induction (r_peers r) as [|[k v] l IH]; [destruct (x =? c); reflexivity|]. cbn [map fst].
    destruct (k =? c) eqn:E; rewrite !get_cons, IH.
    - apply N.eqb_eq in E. subst k. rewrite (N.eqb_sym c x). destruct (x =? c); reflexivity.
    - destruct (k =? x) eqn:E2; [|reflexivity]. apply N.eqb_eq in E2. subst k. rewrite E. reflexivity.
  Qed.
  Lemma keys_set_peer r c p : keys (set_peer r c p) = keys r.
  Proof. unfold keys, set_peer. cbn. rewrite map_map. apply map_ext. intros [k v]. cbn. destruct (k =? c) eqn:E; [|reflexivity]. apply N.eqb_eq in E. auto. Qed.
  Lemma keys_queue_at r c t i : keys (queue_at r c t i) = keys r.
  Proof. unfold queue_at. destruct (get c (r_peers r)); [apply keys_set_peer|reflexivity]. Qed.
  Lemma keys_queue_all l r t n i : keys (queue_all r l t n i) = keys r.
  Proof. revert r t. induction l as [|c l IH]; intros r t; [reflexivity|]. cbn [queue_all]. rewrite IH. apply keys_queue_at. Qed.
  Lemma get_queue_at x r c t i : get x (r_peers (queue_at r c t i)) = if x =? c then option_map (addq t i) (get x (r_peers r)) else get x (r_peers r).
  Proof.
    unfold queue_at. destruct (get c (r_peers r)) as [p|] eqn:G.
    - rewrite get_set_peer. destruct (x =? c) eqn:E; [|reflexivity]. apply N.eqb_eq in E. subst x. rewrite G. reflexivity.
    - destruct (x =? c) eqn:E; [|reflexivity]. apply N.eqb_eq in E. subst x. rewrite G. reflexivity.
  Qed.
  Lemma get_queue_all x l : forall r t n i, NoDup l ->
    (~ In x l -> get x (r_peers (queue_all r l t n i)) = get x (r_peers r)) /\
    (forall k, nth_error l k = Some x -> get x (r_peers (queue_all r l t n i)) = option_map (addq (t + n * N.of_nat k) i) (get x (r_peers r))).
  Proof.
    induction l as [|c l IH]; intros r t n i ND; cbn [queue_all].
    - split; [auto|]. intros [|k]; discriminate.
    - inversion ND as [|? ? H1 H2]; subst. destruct (IH (queue_at r c t i) (t + n) n i H2) as [A B]. split.
      + intros H. rewrite A by (intros Y; apply H; cbn; auto). rewrite get_queue_at. destruct (x =? c) eqn:E; [|reflexivity].
        apply N.eqb_eq in E. subst. exfalso. apply H. cbn. auto.
      + intros [|k] H.
        * cbn in H. inversion H; subst. rewrite A by exact H1. rewrite get_queue_at, N.eqb_refl. rewrite N.mul_0_r, N.add_0_r. reflexivity.
        * cbn in H. rewrite (B k H), get_queue_at. destruct (x =? c) eqn:E.
          -- apply N.eqb_eq in E. subst. exfalso. apply H1. eapply nth_error_In; eauto.
          -- replace (t + n + n * N.of_nat k) with (t + n * N.of_nat (S k)) by lia. reflexivity.
  Qed.

  (** a peer is marked, its other data changes, a message is put into its queue *)
  Definition marked (e : event) (c : N) (p : peer) (s : list N) : Prop :=
    s = p_sent p \/ exists h, s = p_sent (mark_sent h p) /\ (e = ENote c h \/ exists now sh m, e = ERecv now sh c m /\ m_hash m = h).
  Definition queued (o : list out) (q q' : list (N * item)) : Prop :=
    q' = q \/ exists t i v, q' = enqueue t i q /\ In (Relay v (i_msg i)) o.
  Record pchg (e : event) (o : list out) (c : N) (p p' : peer) : Prop := {
    g_sent : marked e c p (p_sent p');
    g_queue : queued o (p_queue p) (p_queue p');
    g_valid : e <> EInvalid c -> p_valid p' = p_valid p }.
  Definition peff (r : router) (e : event) (r' : router) (o : list out) : Prop :=
    keys r' = keys r /\ forall c, match get c (r_peers r) with
                                  | Some p => exists p', get c (r_peers r') = Some p' /\ pchg e o c p p'
                                  | None => get c (r_peers r') = None end.
  Lemma pchg_refl e o c p : pchg e o c p p.
  Proof. constructor; [left|left|]; reflexivity. Qed.
  Lemma peff_refl r e o r' : r_peers r' = r_peers r -> peff r e r' o.
  Proof. intros H. unfold peff, keys. rewrite H. split; [reflexivity|]. intros c. destruct (get c (r_peers r)) as [p|]; [|reflexivity]. exists p. split; [reflexivity|]. apply pchg_refl. Qed.
  (** broadcast after a peer was marked or nothing happened *)
  Definition marks (r : router) (e : event) (r' : router) : Prop :=
    keys r' = keys r /\ forall c, match get c (r_peers r) with
                                  | Some p => exists p', get c (r_peers r') = Some p' /\ marked e c p (p_sent p') /\ p_queue p' = p_queue p /\ p_valid p' = p_valid p
                                  | None => get c (r_peers r') = None end.
  Lemma marks_peff r e r' o : marks r e r' -> peff r e r' o.
  Proof.
    intros [K H]. split; [exact K|]. intros c. specialize (H c). destruct (get c (r_peers r)) as [p|]; [|exact H].
    destruct H as (p' & A & B & C & D). exists p'. split; [exact A|]. constructor; auto. left. exact C.
  Qed.
  Lemma marks_refl r e r' : r_peers r' = r_peers r -> marks r e r'.
  Proof. intros H. unfold marks, keys. rewrite H. split; [reflexivity|]. intros c. destruct (get c (r_peers r)) as [p|]; [|reflexivity]. exists p. repeat split. left. reflexivity. Qed.
  Lemma marks_more r e r1 r2 : marks r e r1 -> r_peers r2 = r_peers r1 -> marks r e r2.
  Proof. unfold marks, keys. intros H ->. exact H. Qed.
  Lemma mark_marks r e c h : (e = ENote c h \/ exists now sh m, e = ERecv now sh c m /\ m_hash m = h) -> marks r e (mark r c h).
  Proof.
    intros H. unfold mark. destruct (get c (r_peers r)) as [p|] eqn:G; [|apply marks_refl; reflexivity].
    split; [apply keys_set_peer|]. intros x. rewrite get_set_peer. destruct (x =? c) eqn:E.
    - apply N.eqb_eq in E. subst x. rewrite G. cbn. eexists. split; [reflexivity|]. split; [|unfold mark_sent; destruct (mem h (p_sent p)); auto].
      right. exists h. auto.
    - destruct (get x (r_peers r)) as [p2|]; [|reflexivity]. exists p2. repeat split. left. reflexivity.
  Qed.
  Lemma targets_nodup f so r : NoDup (keys r) -> NoDup (targets f so r).
  Proof.
    unfold targets, keys. generalize (fun e : N * peer => (negb so || p_synced (snd e)) && f (p_type (snd e))). intros g.
    induction (r_peers r) as [|[c p] l IH]; cbn; intros H; [constructor|]. inversion H; subst. destruct (g (c, p)); [|auto]. cbn. constructor; [|auto].
    intros Y. apply H2. apply in_map_iff in Y as [x [Y1 Y2]]. apply filter_In in Y2 as [Y2 _]. apply in_map_iff. eauto.
  Qed.
  Lemma broadcast_peff r e r1 r2 o now s m f rl so v :
    marks r e r1 -> NoDup (keys r) -> (forall l, NoDup l -> NoDup (s l)) -> In (Relay v m) o -> r_peers r2 = r_peers (broadcast r1 now s m f rl so) -> peff r e r2 o.
  Proof.
    intros [K M] ND SH O P. unfold peff, keys. rewrite P. fold (keys (broadcast r1 now s m f rl so)). unfold RelayModel.broadcast.
    set (cl := s (targets f so r1)). split; [rewrite keys_queue_all; exact K|].
    assert (NC : NoDup cl) by (apply SH, targets_nodup; rewrite K; exact ND).
    intros c. specialize (M c). destruct (get_queue_all c cl r1 now (relay_target / (1 + N.of_nat (length cl))) (mk_item m rl) NC) as [A B].
    destruct (get c (r_peers r)) as [p|].
    - destruct M as (p' & M1 & M2 & M3 & M4). destruct (in_dec N.eq_dec c cl) as [I|I].
      + apply In_nth_error in I as [k I]. rewrite (B k I), M1. cbn [option_map]. eexists. split; [reflexivity|]. constructor; cbn [addq p_sent p_queue p_valid]; auto.
        right. rewrite M3. eexists _, _, v. split; [reflexivity|exact O].
      + rewrite (A I). exists p'. split; [exact M1|]. constructor; auto. left. exact M3.
    - destruct (in_dec N.eq_dec c cl) as [I|I].
      + apply In_nth_error in I as [k I]. rewrite (B k I), M. reflexivity.
      + rewrite (A I). exact M.
  Qed.
  Lemma rel_peers r h r' ok o : rel r h r' ok o -> r_peers r' = r_peers r.
  Proof. intros [r2 G ->|r2 G ->|G]; reflexivity. Qed.
  Lemma rcv_marks r e h c r' ok o : receive_msg_hash r h c = (r', ok, o) -> (exists now sh m, e = ERecv now sh c m /\ m_hash m = h) -> marks r e r'.
  Proof.
    unfold receive_msg_hash, note_hash. destruct (get h (r_info r)); intros H Y; inversion H; subst.
    - apply mark_marks. auto.
    - destruct (mark_marks (set_info r ((h, false) :: r_info r) (r_hashes r ++ [h])) e c h) as [K M]; [auto|]. split; [exact K|exact M].
  Qed.

  Lemma handle_peff r now s m local r' o : NoDup (keys r) -> (forall l, NoDup l -> NoDup (s l)) -> handle r now s m local = (r', o) -> peff r (EHandle now s m local) r' o.
  Proof.
    intros ND SH. unfold RelayModel.handle. set (e := EHandle now s m local).
    assert (MR : forall h r1 ok o1, relay_msg_hash r h = (r1, ok, o1) -> marks r e r1).
    { intros h r1 ok o1 R. apply relay_rel, rel_peers in R. apply marks_refl. exact R. }
    destruct (m_kind m).
    - set (io := match get (m_hash m) (r_info r) with Some _ => false | None => true end). clearbody io.
      destruct (relay_msg_hash r (m_hash m)) as [[r1 ok] o1] eqn:R. apply MR in R. destruct ok; intros [= <- <-].
      + eapply (broadcast_peff r e r1); [eassumption|exact ND|exact SH|apply in_or_app; right; left; reflexivity|reflexivity].
      + apply marks_peff. eapply marks_more; [exact R|reflexivity].
    - destruct (relay_msg_hash r (m_hash m)) as [[r1 ok] o1] eqn:R. apply MR in R. destruct ok; [|intros [= <- <-]; apply marks_peff; exact R].
      destruct local; intros [= <- <-].
      + eapply (broadcast_peff r e r1); [eassumption|exact ND|exact SH|apply in_or_app; right; left; reflexivity|reflexivity].
      + unfold RelayModel.relay. destruct do_relay; [|apply marks_peff; exact R]. eapply (broadcast_peff r e r1); [eassumption|exact ND|exact SH|apply in_or_app; right; left; reflexivity|reflexivity].
    - set (r0 := if local then _ else r). assert (P0 : r_peers r0 = r_peers r) by (unfold r0; destruct local; reflexivity). clearbody r0.
      destruct (local && (m_vdf m <=? r_vdf r0)); [intros [= <- <-]; apply peff_refl; exact P0|].
      set (io := mem _ _). clearbody io. destruct (relay_msg_hash r0 (m_hash m)) as [[r1 ok] o1] eqn:R. apply relay_rel, rel_peers in R.
      assert (M1 : marks r e r1) by (apply marks_refl; congruence). destruct ok; intros [= <- <-].
      + eapply (broadcast_peff r e r1); [eassumption|exact ND|exact SH|apply in_or_app; right; left; reflexivity|reflexivity].
      + apply marks_peff. eapply marks_more; [exact M1|reflexivity].
    - destruct (relay_msg_hash r (m_hash m)) as [[r1 ok] o1] eqn:R. apply MR in R. destruct ok; intros [= <- <-]; [|apply marks_peff; exact R].
      eapply (broadcast_peff r e r1); [eassumption|exact ND|exact SH|apply in_or_app; right; left; reflexivity|reflexivity].
    - destruct (m_proof m); [|intros [= <- <-]; apply peff_refl; reflexivity].
      destruct (relay_msg_hash r (m_hash m)) as [[r1 ok] o1] eqn:R. apply MR in R. destruct ok; intros [= <- <-]; [|apply marks_peff; exact R].
      eapply (broadcast_peff r e r1); [eassumption|exact ND|exact SH|apply in_or_app; right; left; reflexivity|reflexivity].
    - destruct (relay_msg_hash r (m_hash m)) as [[r1 ok] o1] eqn:R. apply MR in R. destruct ok; intros [= <- <-]; [|apply marks_peff; exact R].
      eapply (broadcast_peff r e r1); [eassumption|exact ND|exact SH|apply in_or_app; right; left; reflexivity|reflexivity].
  Qed.
  Lemma msg_peff r now s c m r' o : NoDup (keys r) -> (forall l, NoDup l -> NoDup (s l)) -> on_msg r now s c m = (r', o) -> peff r (ERecv now s c m) r' o.
  Proof.
    intros ND SH. set (e := ERecv now s c m).
    assert (MR : forall h r1 ok o1, m_hash m = h -> receive_msg_hash r h c = (r1, ok, o1) -> marks r e r1).
    { intros h r1 ok o1 EH R. eapply rcv_marks; [exact R|]. exists now, s, m. auto. }
    assert (OT : forall r' o, on_other r c m = (r', o) -> peff r e r' o).
    { intros r2 o2. unfold on_other. destruct (negb (m_ok m)); [intros [= <- <-]; apply peff_refl; reflexivity|].
      destruct (receive_msg_hash r (m_hash m) c) as [[r1 n] o1] eqn:R. apply (MR _ _ _ _ eq_refl) in R. intros [= <- <-]. apply marks_peff. exact R. }
    unfold RelayModel.on_msg. destruct (m_kind m); try apply OT.
    - unfold on_block. destruct (_ <? _); [intros [= <- <-]; apply peff_refl; reflexivity|].
      destruct (negb (m_ok m)); [intros [= <- <-]; apply peff_refl; reflexivity|].
      destruct (receive_msg_hash r (m_hash m) c) as [[r1 n] o1] eqn:R. apply (MR _ _ _ _ eq_refl) in R. destruct n; [|intros [= <- <-]; apply marks_peff; exact R].
      destruct (negb (m_sig m)); [intros [= <- <-]; apply marks_peff; exact R|].
      destruct (has_credit _ _); [|intros [= <- <-]; apply marks_peff; exact R].
      match goal with |- context [relay_msg_hash ?x _] => set (rx := x) end.
      destruct (relay_msg_hash rx (m_hash m)) as [[r3 ok] o3] eqn:R3. apply relay_rel, rel_peers in R3.
      assert (M3 : marks r e r3) by (eapply marks_more; [exact R|exact R3]).
      destruct ok; intros [= <- <-]; [|apply marks_peff; exact M3].
      unfold RelayModel.relay. destruct do_relay; [|apply marks_peff; exact M3]. eapply (broadcast_peff r e r3); [exact M3|exact ND|exact SH| |reflexivity].
      apply in_or_app. left. apply in_or_app. right. apply in_or_app. right. left. reflexivity.
    - unfold on_vdf. destruct (_ <? _); [intros [= <- <-]; apply peff_refl; reflexivity|].
      destruct (negb (m_ok m)); [intros [= <- <-]; apply peff_refl; reflexivity|].
      destruct (receive_msg_hash r (m_hash m) c) as [[r1 n] o1] eqn:R. apply (MR _ _ _ _ eq_refl) in R. destruct n; [|intros [= <- <-]; apply marks_peff; exact R].
      destruct (negb (m_sig m)); [intros [= <- <-]; apply marks_peff; exact R|].
      destruct (m_short m); [|intros [= <- <-]; apply marks_peff; exact R].
      destruct (get (m_key m) (r_timelords r1)) as [k|]; [|intros [= <- <-]; apply marks_peff; exact R].
      destruct (0 <? k); [|intros [= <- <-]; apply marks_peff; exact R].
      destruct (relay_msg_hash r1 (m_hash m)) as [[r3 ok] o3] eqn:R3. apply relay_rel, rel_peers in R3.
      destruct ok; intros [= <- <-]; [|apply marks_peff; eapply marks_more; [exact R|exact R3]].
      match goal with |- context [relay (set_credit ?a ?b ?d)] => set (rx := set_credit a b d) end.
      assert (M3 : marks r e rx) by (eapply marks_more; [exact R|exact R3]).
      unfold RelayModel.relay. destruct do_relay; [|apply marks_peff; exact M3]. eapply (broadcast_peff r e rx); [exact M3|exact ND|exact SH| |reflexivity].
      apply in_or_app. left. apply in_or_app. right. apply in_or_app. right. left. reflexivity.
    - unfold on_vdf_point. destruct (get c (r_peers r)) as [p|]; [|intros [= <- <-]; apply peff_refl; reflexivity].
      destruct (p_master p && m_ok m); [|intros [= <- <-]; apply peff_refl; reflexivity].
      destruct (receive_msg_hash r (m_hash m) c) as [[r1 n] o1] eqn:R. apply (MR _ _ _ _ eq_refl) in R. intros [= <- <-]. apply marks_peff. exact R.
  Qed.
  Lemma upd_peff r e c f o : (forall p, p_sent (f p) = p_sent p /\ p_queue (f p) = p_queue p /\ (e <> EInvalid c -> p_valid (f p) = p_valid p)) -> peff r e (upd r c f) o.
  Proof.
    intros H. unfold upd. destruct (get c (r_peers r)) as [p|] eqn:G; [|apply peff_refl; reflexivity]. split; [apply keys_set_peer|].
    intros x. rewrite get_set_peer. destruct (x =? c) eqn:E.
    - apply N.eqb_eq in E. subst x. rewrite G. cbn. eexists. split; [reflexivity|]. destruct (H p) as (A & B & C). constructor; [left; exact A|left; exact B|exact C].
    - destruct (get x (r_peers r)) as [p2|]; [|reflexivity]. exists p2. split; [reflexivity|]. apply pchg_refl.
  Qed.
  Lemma send_peers_get now ok l : forall l' o, send_peers now ok l = (l', o) -> map fst l' = map fst l /\
    (NoDup (map fst l) -> forall c,
      match get c l with
      | Some p => exists p' oc, get c l' = Some p' /\ send_peer now ok c p = (p', oc) /\ (forall m, In (Sent c m) o <-> In (Sent c m) oc) /\ (forall h, count (is_sent c h) o = count (is_sent c h) oc)
      | None => get c l' = None /\ (forall m, ~ In (Sent c m) o) /\ (forall h, count (is_sent c h) o = 0%nat)
      end).
  Proof.
    assert (OC : forall c p p' oc, send_peer now ok c p = (p', oc) -> forall x, In x oc -> exists m, x = Sent c m).
    { intros c p p' oc E x Y. unfold send_peer in E. destruct (send_queue now (ok c) c p (p_queue p)) as [[p2 q2] o3] eqn:E3. inversion E; subst.
      apply send_queue_spec in E3 as (_ & _ & _ & _ & A5 & _). destruct (A5 x Y) as (t & i & -> & _). eauto. }
    assert (CZ : forall c h o, (forall m, ~ In (Sent c m) o) -> count (is_sent c h) o = 0%nat).
    { intros c h o H. unfold count. induction o as [|x o IH]; [reflexivity|]. cbn [filter]. destruct (is_sent c h x) eqn:E.
      - exfalso. destruct x as [| | |d m|]; try discriminate. cbn in E. apply andb_true_iff in E as [E _]. apply andb_true_iff in E as [E _]. apply N.eqb_eq in E. subst d. apply (H m). cbn. auto.
      - apply IH. intros m Y. apply (H m). cbn. auto. }
    induction l as [|[k v] l IH]; intros l' o E; cbn [send_peers] in E.
    - inversion E; subst. split; [reflexivity|]. intros _ c. cbn. auto.
    - destruct (send_peer now ok k v) as [v' o1] eqn:E1. destruct (send_peers now ok l) as [l2 o2] eqn:E2. inversion E; subst.
      destruct (IH _ _ eq_refl) as [K H]. split; [cbn; rewrite K; reflexivity|]. intros ND c. inversion ND as [|? ? N1 N2]; subst. specialize (H N2 c).
      rewrite !get_cons. destruct (k =? c) eqn:Ek.
      + apply N.eqb_eq in Ek. subst k. assert (G : get c l = None) by (apply get_key; exact N1). rewrite G in H. destruct H as (_ & H & HC).
        exists v', o1. split; [reflexivity|]. split; [exact E1|]. split.
        * intros m. rewrite in_app_iff. split; [intros [Y|Y]; [exact Y|destruct (H m Y)]|auto].
        * intros h. rewrite count_app, HC. lia.
      + apply N.eqb_neq in Ek. assert (NS : forall m, ~ In (Sent c m) o1).
        { intros m Y. destruct (OC _ _ _ _ E1 _ Y) as [m' X]. inversion X. congruence. }
        destruct (get c l) as [p|].
        * destruct H as (p' & oc & A & B & C & D). exists p', oc. split; [exact A|]. split; [exact B|]. split.
          -- intros m. rewrite in_app_iff, <- C. split; [intros [Y|Y]; [destruct (NS m Y)|exact Y]|auto].
          -- intros h. rewrite count_app, D, CZ; auto.
        * destruct H as (A & B & C). split; [exact A|]. split.
          -- intros m Y. apply in_app_iff in Y as [Y|Y]; [exact (NS m Y)|exact (B m Y)].
          -- intros h. rewrite count_app, C, CZ; auto.
  Qed.

  (** ** the invariant *)
  Definition waiting (c h : N) (r : router) : nat := match get c (r_peers r) with Some p => count (is_item h) (p_queue p) | None => 0%nat end.
  Record pinv (r : router) (l : list event) (o : list out) : Prop := {
    x_nd : NoDup (keys r);
    x_sorted : forall c p, get c (r_peers r) = Some p -> StronglySorted before (p_queue p);
    x_sent : forall c p h, get c (r_peers r) = Some p -> In h (p_sent p) -> told c h l \/ sent_to c h o;
    x_queue : forall c p t i, get c (r_peers r) = Some p -> In (t, i) (p_queue p) -> exists v, In (Relay v (i_msg i)) o;
    x_vdf : forall k m, In (k, m) (r_vdfs r) -> m_kind m = KVdf /\ In (Relay true m) o;
    x_source : forall c m, In (Sent c m) o -> exists v, In (Relay v m) o;
    x_count : forall c h, (count (is_sent c h) o + waiting c h r <= count (is_relay h) o)%nat }.

  Lemma step_vdfs r e r' o : step r e = (r', o) -> forall k m, In (k, m) (r_vdfs r') -> In (k, m) (r_vdfs r) \/ (m_kind m = KVdf /\ In (Relay true m) o).
  Proof.
    assert (SM : forall a b, same a b -> r_vdfs b = r_vdfs a) by (unfold same; tauto).
    assert (RL : forall a h b ok o, relay_msg_hash a h = (b, ok, o) -> r_vdfs b = r_vdfs a) by (intros a h b ok o0 R; apply relay_rel in R; destruct R as [r2 G ->|r2 G ->|G]; reflexivity).
    assert (RC : forall a h c b ok o, receive_msg_hash a h c = (b, ok, o) -> r_vdfs b = r_vdfs a) by (intros a h c b ok o0 R; apply receive_rcv in R; destruct R as [r2 G S|r2 G S]; apply SM in S; exact S).
    assert (BR : forall a now s m f x y, r_vdfs (broadcast a now s m f x y) = r_vdfs a) by (intros; apply SM, broadcast_same).
    assert (RR : forall a now s m f, r_vdfs (relay a now s m f) = r_vdfs a) by (intros; apply SM, relay_same).
    intros E k m0.
    assert (ID : r_vdfs r' = r_vdfs r -> In (k, m0) (r_vdfs r') -> In (k, m0) (r_vdfs r) \/ (m_kind m0 = KVdf /\ In (Relay true m0) o)) by (intros ->; auto).
    destruct e as [now s m local|now s c m|c h| |now ok|c ma|c|c|c t|c b]; cbn [RelayModel.step] in E.
    - unfold RelayModel.handle in E. destruct (m_kind m) eqn:K.
      + set (io := match get (m_hash m) (r_info r) with Some _ => false | None => true end) in E. clearbody io.
        destruct (relay_msg_hash r (m_hash m)) as [[r1 ok] o1] eqn:R. apply RL in R. inversion E; subst. cbn [r_vdfs]. intros Y. left. apply filter_In in Y as [Y _].
        destruct ok; rewrite ?BR, R in Y; exact Y.
      + destruct (relay_msg_hash r (m_hash m)) as [[r1 ok] o1] eqn:R. apply RL in R. apply ID. destruct ok; [destruct local|]; inversion E; subst; rewrite ?BR, ?RR; exact R.
      + set (r0 := if local then _ else r) in E. assert (P0 : r_vdfs r0 = r_vdfs r) by (unfold r0; destruct local; reflexivity). clearbody r0.
        destruct (local && (m_vdf m <=? r_vdf r0)); [apply ID; inversion E; subst; exact P0|].
        set (io := mem _ _) in E. clearbody io. destruct (relay_msg_hash r0 (m_hash m)) as [[r1 ok] o1] eqn:R. apply RL in R. inversion E; subst. cbn [r_vdfs].
        destruct ok; rewrite ?BR, R, P0; [|auto]. intros Y. apply in_app_iff in Y as [Y|[Y|[]]]; [auto|]. inversion Y; subst. right. split; [exact K|]. apply in_or_app. cbn. auto.
      + destruct (relay_msg_hash r (m_hash m)) as [[r1 ok] o1] eqn:R. apply RL in R. apply ID. destruct ok; inversion E; subst; rewrite ?BR; exact R.
      + destruct (m_proof m); [|apply ID; inversion E; reflexivity].
        destruct (relay_msg_hash r (m_hash m)) as [[r1 ok] o1] eqn:R. apply RL in R. apply ID. destruct ok; inversion E; subst; cbn [set_credit r_vdfs]; rewrite ?BR; exact R.
      + destruct (relay_msg_hash r (m_hash m)) as [[r1 ok] o1] eqn:R. apply RL in R. apply ID. destruct ok; inversion E; subst; rewrite ?BR; exact R.
    - apply ID. assert (OT : on_other r c m = (r', o) -> r_vdfs r' = r_vdfs r).
      { unfold on_other. destruct (negb (m_ok m)); [intros [= <- <-]; reflexivity|].
        destruct (receive_msg_hash r (m_hash m) c) as [[r1 n] o1] eqn:R. apply RC in R. intros [= <- <-]. exact R. }
      unfold RelayModel.on_msg in E. destruct (m_kind m); try (apply OT; exact E).
      + unfold on_block in E. destruct (_ <? _); [inversion E; reflexivity|]. destruct (negb (m_ok m)); [inversion E; reflexivity|].
        clear OT. destruct (receive_msg_hash r (m_hash m) c) as [[r1 n] o1] eqn:R. apply RC in R. destruct n; [|inversion E; subst; exact R].
        destruct (negb (m_sig m)); [inversion E; subst; exact R|]. destruct (has_credit _ _); [|inversion E; subst; exact R].
        match type of E with context [relay_msg_hash ?x _] => set (rx := x) in E end.
        destruct (relay_msg_hash rx (m_hash m)) as [[r3 ok] o3] eqn:R3. apply RL in R3. destruct ok; inversion E; subst; rewrite ?RR, R3; exact R.
      + unfold on_vdf in E. destruct (_ <? _); [inversion E; reflexivity|]. destruct (negb (m_ok m)); [inversion E; reflexivity|].
        clear OT. destruct (receive_msg_hash r (m_hash m) c) as [[r1 n] o1] eqn:R. apply RC in R. destruct n; [|inversion E; subst; exact R].
        destruct (negb (m_sig m)); [inversion E; subst; exact R|]. destruct (m_short m); [|inversion E; subst; exact R].
        destruct (get (m_key m) (r_timelords r1)) as [k0|]; [|inversion E; subst; exact R]. destruct (0 <? k0); [|inversion E; subst; exact R].
        destruct (relay_msg_hash r1 (m_hash m)) as [[r3 ok] o3] eqn:R3. apply RL in R3. destruct ok; inversion E; subst; rewrite ?RR; cbn [set_credit r_vdfs]; congruence.
      + unfold on_vdf_point in E. clear OT. destruct (get c (r_peers r)) as [p|]; [|inversion E; reflexivity]. destruct (p_master p && m_ok m); [|inversion E; reflexivity].
        destruct (receive_msg_hash r (m_hash m) c) as [[r1 n] o1] eqn:R. apply RC in R. inversion E; subst. exact R.
    - apply ID. inversion E; subst. apply SM, mark_same.
    - apply ID. inversion E; subst. reflexivity.
    - apply ID. destruct (send_peers now ok (r_peers r)). inversion E; subst. reflexivity.
    - apply ID. inversion E; subst. reflexivity.
    - apply ID. inversion E; subst. apply SM, upd_same.
    - apply ID. inversion E; subst. reflexivity.
    - apply ID. inversion E; subst. apply SM, upd_same.
    - apply ID. inversion E; subst. apply SM, upd_same.
  Qed.
  Lemma told_more c h l e : told c h l -> told c h (l ++ [e]).
  Proof. intros [H|(now & s & m & H & X)]; [left; apply in_or_app; auto|right; exists now, s, m; split; [apply in_or_app; auto|exact X]]. Qed.
  Lemma sent_more c h o o' : sent_to c h o -> sent_to c h (o ++ o').
  Proof. intros (m & H & X). exists m. split; [apply in_or_app; auto|exact X]. Qed.
  Lemma count_in {A} (f : A -> bool) x l : In x l -> f x = true -> (1 <= count f l)%nat.
  Proof. intros H F. unfold count. assert (Y : In x (filter f l)) by (apply filter_In; auto). destruct (filter f l); [destruct Y|cbn; lia]. Qed.
  Lemma mark_sent_in h p x : In x (p_sent (mark_sent h p)) -> x = h \/ In x (p_sent p).
  Proof. unfold mark_sent. destruct (mem h (p_sent p)); cbn; intuition. Qed.
  Lemma no_sent_count c h o : (forall m, ~ In (Sent c m) o) -> count (is_sent c h) o = 0%nat.
  Proof.
    intros H. unfold count. induction o as [|x o IH]; [reflexivity|]. cbn [filter]. destruct (is_sent c h x) eqn:E.
    - exfalso. destruct x as [| | |d m|]; try discriminate. cbn in E. apply andb_true_iff in E as [E _]. apply andb_true_iff in E as [E _]. apply N.eqb_eq in E. subst d. apply (H m). cbn. auto.
    - apply IH. intros m Y. apply (H m). cbn. auto.
  Qed.
  Lemma peff_pinv r l o e r' o' : pinv r l o -> peff r e r' o' -> (forall c m, ~ In (Sent c m) o') ->
    (forall k m, In (k, m) (r_vdfs r') -> In (k, m) (r_vdfs r) \/ (m_kind m = KVdf /\ In (Relay true m) o')) -> pinv r' (l ++ [e]) (o ++ o').
  Proof.
    intros [A B C D V S T] [K P] NS VD. constructor.
    - rewrite K. exact A.
    - intros c p' G. specialize (P c). destruct (get c (r_peers r)) as [p|] eqn:G0; [|congruence]. destruct P as (p2 & G2 & [Q1 Q2 Q3]). assert (p2 = p') by congruence. subst p2.
      destruct Q2 as [->|(t & i & v & -> & _)]; [|apply enqueue_sorted]; eapply B; eauto.
    - intros c p' h G H. specialize (P c). destruct (get c (r_peers r)) as [p|] eqn:G0; [|congruence]. destruct P as (p2 & G2 & [Q1 Q2 Q3]). assert (p2 = p') by congruence. subst p2.
      assert (OLD : In h (p_sent p) -> told c h (l ++ [e]) \/ sent_to c h (o ++ o')).
      { intros Y. destruct (C c p h G0 Y) as [Z|Z]; [left; apply told_more; exact Z|right; apply sent_more; exact Z]. }
      destruct Q1 as [Q1|(h' & Q1 & Y)]; rewrite Q1 in H; [auto|]. apply mark_sent_in in H as [->|H]; [|auto]. left.
      destruct Y as [->|(now & s & m & -> & X)]; [left|right; exists now, s, m; split; [|exact X]]; apply in_or_app; cbn; auto.
    - intros c p' t i G H. specialize (P c). destruct (get c (r_peers r)) as [p|] eqn:G0; [|congruence]. destruct P as (p2 & G2 & [Q1 Q2 Q3]). assert (p2 = p') by congruence. subst p2.
      destruct Q2 as [Q2|(t2 & i2 & v & Q2 & Y)]; rewrite Q2 in H.
      + destruct (D c p t i G0 H) as [v Z]. exists v. apply in_or_app. auto.
      + apply enqueue_in in H as [H|H]; [inversion H; subst; exists v; apply in_or_app; auto|]. destruct (D c p t i G0 H) as [v' Z]. exists v'. apply in_or_app. auto.
    - intros k m H. destruct (VD k m H) as [Y|[Y Z]]; [destruct (V k m Y)|]; split; auto; apply in_or_app; auto.
    - intros c m H. apply in_app_iff in H as [H|H]; [|destruct (NS c m H)]. destruct (S c m H) as [v Y]. exists v. apply in_or_app. auto.
    - intros c h. rewrite !count_app, (no_sent_count c h o' (NS c)). specialize (T c h). unfold waiting in *. specialize (P c).
      destruct (get c (r_peers r)) as [p|] eqn:G0.
      + destruct P as (p2 & -> & [Q1 Q2 Q3]). destruct Q2 as [->|(t2 & i2 & v & -> & Y)]; [lia|]. pose proof (enqueue_count h t2 i2 (p_queue p)) as EC.
        unfold b1 in EC. destruct (is_item h (t2, i2)) eqn:II; [|lia]. unfold is_item in II. cbn [snd] in II. apply andb_true_iff in II as [II _].
        pose proof (count_in (is_relay h) _ o' Y II). lia.
      + rewrite P. lia.
  Qed.
  Lemma get_map {A B} (f : A -> B) x (l : list (N * A)) : get x (map (fun e => (fst e, f (snd e))) l) = option_map f (get x l).
  Proof. induction l as [|[k v] l IH]; [reflexivity|]. cbn [map fst snd]. rewrite !get_cons, IH. destruct (k =? x); reflexivity. Qed.
  Lemma nodup_erase {A} x (l : list (N * A)) : NoDup (map fst l) -> NoDup (map fst (erase x l)) /\ ~ In x (map fst (erase x l)).
  Proof.
    intros H. split.
    - unfold erase. induction l as [|[k v] l IH]; [constructor|]. inversion H; subst. cbn [filter fst]. destruct (negb (k =? x)); [|auto]. cbn. constructor; [|auto].
      intros Y. apply H2. apply in_map_iff in Y as [e [Y1 Y2]]. apply filter_In in Y2 as [Y2 _]. apply in_map_iff. eauto.
    - intros Y. apply in_map_iff in Y as [e [Y1 Y2]]. apply in_erase in Y2 as [Y2 _]. contradiction.
  Qed.
  Lemma step_pinv r l o e r' o' : pinv r l o -> shuffles e -> step r e = (r', o') -> pinv r' (l ++ [e]) (o ++ o').
  Proof.
    intros PI SH E. pose proof (step_vdfs _ _ _ _ E) as VD. pose proof (step_ceff _ _ _ _ _ _ _ _ _ E) as [FE _ _]. pose proof PI as [A B C D V S T].
    assert (PE : (forall c m, ~ In (Sent c m) o') -> peff r e r' o' -> pinv r' (l ++ [e]) (o ++ o')) by (intros NS P; eapply peff_pinv; eauto).
    destruct e as [now s m local|now s c m|c h| |now ok|c ma|c|c|c t|c b]; cbn [RelayModel.step] in E.
    - apply PE; [intros c m0 Y; destruct (FE _ Y) as [(? & ? & Z)|(? & Z)]; discriminate|]. eapply handle_peff; [exact A| |exact E]. intros. apply SH. assumption.
    - apply PE; [intros c0 m0 Y; destruct (FE _ Y) as [(? & ? & Z)|(? & Z)]; discriminate|]. eapply msg_peff; [exact A| |exact E]. intros. apply SH. assumption.
    - inversion E; subst. apply PE; [intros ? ? []|]. apply marks_peff, mark_marks. auto.
    - inversion E; subst. rewrite app_nil_r.
      assert (G : forall c, get c (r_peers (trim max_hash_cache (set_peers r (map (fun e => (fst e, trim_peer max_sent_cache (snd e))) (r_peers r))))) = option_map (trim_peer max_sent_cache) (get c (r_peers r))) by (intros c; apply get_map).
      constructor; auto.
      + unfold keys. cbn. rewrite map_map. exact A.
      + intros c p Y. rewrite G in Y. destruct (get c (r_peers r)) as [p0|] eqn:G0; [|discriminate]. inversion Y; subst. cbn. eapply B; eauto.
      + intros c p h Y H. rewrite G in Y. destruct (get c (r_peers r)) as [p0|] eqn:G0; [|discriminate]. inversion Y; subst. cbn in H. apply filter_In in H as [H _].
        destruct (C c p0 h G0 H); auto. left. apply told_more. assumption.
      + intros c p t i Y H. rewrite G in Y. destruct (get c (r_peers r)) as [p0|] eqn:G0; [|discriminate]. inversion Y; subst. eapply D; eauto.
      + intros c h. unfold waiting. rewrite G. specialize (T c h). unfold waiting in T. destruct (get c (r_peers r)); exact T.
    - destruct (send_peers now ok (r_peers r)) as [l2 o2] eqn:E2. inversion E; subst. destruct (send_peers_get _ _ _ _ _ E2) as [K G]. specialize (G A).
      assert (GS : forall c p', get c l2 = Some p' -> exists p p2 rest oc, get c (r_peers r) = Some p /\ send_queue now (ok c) c p (p_queue p) = (p2, rest, oc) /\
        p_queue p' = rest /\ p_sent p' = p_sent p2 /\ (forall m, In (Sent c m) o' <-> In (Sent c m) oc) /\ (forall h, count (is_sent c h) o' = count (is_sent c h) oc)).
      { intros c p' Y. specialize (G c). destruct (get c (r_peers r)) as [p|]; [|destruct G; congruence]. destruct G as (p1 & oc & G1 & G2 & G3 & G4). assert (p1 = p') by congruence. subst p1.
        unfold send_peer in G2. destruct (send_queue now (ok c) c p (p_queue p)) as [[p2 rest] oc2] eqn:SQ. inversion G2; subst. exists p, p2, rest, oc. repeat split; auto; apply G3. }
      constructor.
      + unfold keys. cbn. rewrite K. exact A.
      + intros c p' Y. cbn in Y. destruct (GS c p' Y) as (p & p2 & rest & oc & G0 & SQ & -> & _). apply send_queue_spec in SQ as (_ & _ & _ & _ & _ & _ & _ & A8). apply A8. eapply B; eauto.
      + intros c p' h Y H. cbn in Y. destruct (GS c p' Y) as (p & p2 & rest & oc & G0 & SQ & _ & PS & OI & _). rewrite PS in H. apply send_queue_spec in SQ as (_ & _ & _ & A4 & _).
        destruct (proj1 (A4 h) H) as [H2|(m & H2 & X)].
        * destruct (C c p h G0 H2); [left; apply told_more; assumption|right; apply sent_more; assumption].
        * right. exists m. split; [apply in_or_app; right; apply OI; exact H2|exact X].
      + intros c p' t i Y H. cbn in Y. destruct (GS c p' Y) as (p & p2 & rest & oc & G0 & SQ & PQ & _). rewrite PQ in H. apply send_queue_spec in SQ as (_ & _ & _ & _ & _ & _ & _ & A8).
        destruct (A8 (B c p G0)) as [_ A8']. destruct (A8' t i H) as [_ H']. destruct (D c p t i G0 H') as [v Z]. exists v. apply in_or_app. auto.
      + intros k m H. destruct (V k m H). split; auto. apply in_or_app. auto.
      + intros c m H. apply in_app_iff in H as [H|H].
        * destruct (S c m H) as [v Z]. exists v. apply in_or_app. auto.
        * specialize (G c). destruct (get c (r_peers r)) as [p|] eqn:G0; [|destruct G as (_ & G & _); destruct (G m H)]. destruct G as (p1 & oc & G1 & G2 & G3 & G4).
          unfold send_peer in G2. destruct (send_queue now (ok c) c p (p_queue p)) as [[p2 rest] oc2] eqn:SQ. inversion G2; subst. apply G3 in H.
          apply send_queue_spec in SQ as (_ & _ & _ & _ & A5 & _). destruct (A5 _ H) as (t & i & X & Y). inversion X; subst. destruct (D c p t i G0 Y) as [v Z]. exists v. apply in_or_app. auto.
      + intros c h. rewrite !count_app. specialize (T c h). unfold waiting in *. cbn [set_peers r_peers]. specialize (G c). destruct (get c (r_peers r)) as [p|] eqn:G0.
        * destruct G as (p1 & oc & -> & G2 & G3 & G4). unfold send_peer in G2. destruct (send_queue now (ok c) c p (p_queue p)) as [[p2 rest] oc2] eqn:SQ. inversion G2; subst.
          apply send_queue_spec in SQ as (_ & _ & _ & _ & _ & A6 & _). specialize (A6 h). rewrite G4. cbn [p_queue]. lia.
        * destruct G as (-> & _ & ->). lia.
    - inversion E; subst. destruct (nodup_erase c (r_peers r) A) as [N1 N2].
      assert (G : forall x p, get x ((c, mk_peer Full false true ma [] [] []) :: erase c (r_peers r)) = Some p -> (x = c /\ p = mk_peer Full false true ma [] [] []) \/ get x (r_peers r) = Some p).
      { intros x p. rewrite get_cons, get_erase, (N.eqb_sym c x). destruct (x =? c) eqn:Ex; [apply N.eqb_eq in Ex; subst; intros [= <-]; auto|auto]. }
      constructor.
      + unfold keys. cbn. constructor; auto.
      + intros x p Y. apply G in Y as [[-> ->]|Y]; [constructor|eauto].
      + intros x p h Y H. apply G in Y as [[-> ->]|Y]; [destruct H|]. destruct (C x p h Y H); [left; apply told_more; assumption|right; apply sent_more; assumption].
      + intros x p t i Y H. apply G in Y as [[-> ->]|Y]; [destruct H|]. destruct (D x p t i Y H) as [v Z]. exists v. apply in_or_app. auto.
      + intros k m H. destruct (V k m H). split; auto. apply in_or_app. auto.
      + intros x m H. apply in_app_iff in H as [H|H].
        * destruct (S x m H) as [v Z]. exists v. apply in_or_app. auto.
        * apply in_map_iff in H as [[k m'] [H1 H2]]. inversion H1; subst. exists true. apply in_or_app. left. eapply V. exact H2.
      + intros x h. rewrite !count_app. assert (Z : count (is_sent x h) (map (fun e => Sent c (snd e)) (r_vdfs r)) = 0%nat).
        { unfold count. clear -V. induction (r_vdfs r) as [|[k m] q IH]; [reflexivity|]. cbn [map filter is_sent snd]. destruct (V k m (or_introl eq_refl)) as [-> _].
          cbn [kind_eqb negb]. rewrite andb_false_r. apply IH. intros k' m' Y. apply (V k' m'). cbn. auto. }
        rewrite Z. specialize (T x h). unfold waiting in *. cbn [set_peers r_peers]. rewrite get_cons, get_erase, (N.eqb_sym c x). destruct (x =? c); [cbn; lia|lia].
    - inversion E; subst. apply PE; [intros ? ? []|]. apply upd_peff. intros p. cbn. split; [reflexivity|]. split; [reflexivity|]. intros X. congruence.
    - inversion E; subst. rewrite app_nil_r. destruct (nodup_erase c (r_peers r) A) as [N1 N2].
      assert (G : forall x p, get x (erase c (r_peers r)) = Some p -> get x (r_peers r) = Some p) by (intros x p; rewrite get_erase; destruct (x =? c); congruence).
      constructor; auto.
      + intros x p Y. eapply B. apply G. exact Y.
      + intros x p h Y H. apply G in Y. destruct (C x p h Y H); [left; apply told_more|right]; assumption.
      + intros x p t i Y H. apply G in Y. eauto.
      + intros x h. specialize (T x h). unfold waiting in *. cbn [set_peers r_peers]. rewrite get_erase. destruct (x =? c); lia.
    - inversion E; subst. apply PE; [intros ? ? []|]. apply upd_peff. intros p. cbn. auto.
    - inversion E; subst. apply PE; [intros ? ? []|]. apply upd_peff. intros p. cbn. auto.
  Qed.
  Lemma run_pinv l r o : Forall shuffles l -> run l = (r, o) -> pinv r l o.
  Proof.
    revert r o. induction l as [|e l IH] using rev_ind; intros r o SH E.
    - inversion E; subst. constructor; cbn; try (intros; discriminate); try (intros; contradiction); try (intros; lia). constructor.
    - rewrite run_snoc in E. unfold step_out in E. destruct (run l) as [r1 o1] eqn:E1. destruct (step r1 e) as [r2 o2] eqn:E2. inversion E; subst.
      apply Forall_app in SH as [S1 S2]. inversion S2; subst. eapply step_pinv; [apply IH; auto|assumption|exact E2].
  Qed.
End P.
