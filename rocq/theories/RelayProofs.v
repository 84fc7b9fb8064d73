(** Proofs about RelayModel: hashes, credits, what is published and passed on. *)
Require Import List Arith NArith Bool Lia.
Require Import Verif.FetchModel Verif.FetchProofs Verif.RelayModel Verif.RelaySpec.
Import List ListNotations.
Open Scope N_scope.

Lemma count_app {A} (f : A -> bool) a b : count f (a ++ b) = (count f a + count f b)%nat.
Proof. unfold count. rewrite filter_app, app_length. reflexivity. Qed.
Lemma seen_app a b : seen (a ++ b) = seen a ++ seen b.
Proof. apply flat_map_app. Qed.

Definition settrue (h : N) (i : list (N * bool)) : list (N * bool) := map (fun e => if fst e =? h then (h, true) else e) i.
Lemma settrue_none h i : get h i = None -> settrue h i = i.
Proof.
  intros H. unfold settrue. rewrite <- (map_id i) at 2. apply map_ext_in. intros [k b] Y. cbn. destruct (k =? h) eqn:E; [|reflexivity].
  apply N.eqb_eq in E. subst k. apply in_get in Y as [w Y]. congruence.
Qed.
Lemma get_cons {A} x k (v : A) m : get x ((k, v) :: m) = if k =? x then Some v else get x m.
Proof. unfold get. cbn [find fst]. destruct (k =? x); reflexivity. Qed.
Lemma get_settrue x h i : get x (settrue h i) = if x =? h then option_map (fun _ => true) (get x i) else get x i.
Proof.
  induction i as [|[k b] i IH]; [destruct (x =? h); reflexivity|]. cbn [settrue map fst]. fold (settrue h i).
  destruct (k =? h) eqn:E; rewrite !get_cons, IH.
  - apply N.eqb_eq in E. subst k. rewrite (N.eqb_sym h x). destruct (x =? h); reflexivity.
  - destruct (k =? x) eqn:E2; [|reflexivity]. apply N.eqb_eq in E2. subst k. rewrite E. reflexivity.
Qed.
Lemma keys_settrue h i : map fst (settrue h i) = map fst i.
Proof. unfold settrue. rewrite map_map. apply map_ext. intros [k b]. cbn. destruct (k =? h) eqn:E; [|reflexivity]. apply N.eqb_eq in E. auto. Qed.
Lemma get_key {A} x (m : list (N * A)) : get x m = None <-> ~ In x (map fst m).
Proof.
  split.
  - intros H Y. apply in_map_iff in Y as [[k v] [E Y]]. cbn in E. subst k. apply in_get in Y as [w Y]. congruence.
  - intros H. destruct (get x m) as [v|] eqn:E; [|reflexivity]. exfalso. apply H. apply get_in in E. apply (in_map fst) in E. exact E.
Qed.

Section P.
  Variables (max_hash_cache max_sent_cache : nat) (relay_target commit_delay : N) (do_relay : bool).
  Notation broadcast := (broadcast relay_target).
  Notation relay := (relay relay_target do_relay).
  Notation handle := (handle relay_target do_relay).
  Notation on_msg := (on_msg relay_target commit_delay do_relay).
  Notation step := (step max_hash_cache max_sent_cache relay_target commit_delay do_relay).
  Notation run := (run max_hash_cache max_sent_cache relay_target commit_delay do_relay).

  (** everything but the peers *)
  Definition same (r r' : router) : Prop :=
    r_info r' = r_info r /\ r_hashes r' = r_hashes r /\ r_farmers r' = r_farmers r /\ r_timelords r' = r_timelords r /\ r_vdfs r' = r_vdfs r /\ r_ours r' = r_ours r /\ r_vdf r' = r_vdf r /\ r_peak r' = r_peak r.
  Lemma same_refl r : same r r. Proof. repeat split. Qed.
  Lemma same_trans a b c : same a b -> same b c -> same a c.
  Proof. unfold same. intuition congruence. Qed.
  Lemma queue_at_same r c t i : same r (queue_at r c t i).
  Proof. unfold queue_at. destruct (get c (r_peers r)); repeat split. Qed.
  Lemma queue_all_same l r t n i : same r (queue_all r l t n i).
  Proof.
    revert r t. induction l as [|c l IH]; intros r t; [apply same_refl|]. cbn [queue_all]. eapply same_trans; [apply queue_at_same|]. apply IH.
  Qed.
  Lemma broadcast_same r now s m f rel so : same r (broadcast r now s m f rel so).
  Proof. apply queue_all_same. Qed.
  Lemma relay_same r now s m f : same r (relay r now s m f).
  Proof. unfold RelayModel.relay. destruct do_relay; [apply broadcast_same|apply same_refl]. Qed.
  Lemma mark_same r c h : same r (mark r c h).
  Proof. unfold mark. destruct (get c (r_peers r)); repeat split. Qed.

  (** what relay_msg_hash does *)
  Inductive rel (r : router) (h : N) : router -> bool -> list out -> Prop :=
    | rel_new r' : get h (r_info r) = None -> r' = set_info r ((h, true) :: r_info r) (r_hashes r ++ [h]) -> rel r h r' true [Seen h]
    | rel_first r' : get h (r_info r) = Some false -> r' = set_info r (settrue h (r_info r)) (r_hashes r) -> rel r h r' true []
    | rel_done : get h (r_info r) = Some true -> rel r h r false [].
  Lemma relay_rel r h r' ok o : relay_msg_hash r h = (r', ok, o) -> rel r h r' ok o.
  Proof.
    unfold relay_msg_hash, note_hash. destruct (get h (r_info r)) as [[|]|] eqn:G; intros H.
    - rewrite G in H. inversion H; subst. constructor 3. exact G.
    - rewrite G in H. inversion H; subst. constructor 2; [exact G|reflexivity].
    - cbn [set_info r_info r_hashes] in H. rewrite get_cons, N.eqb_refl in H. inversion H; subst. constructor 1; [exact G|].
      cbn [map fst]. rewrite N.eqb_refl. fold (settrue h (r_info r)). rewrite (settrue_none _ _ G). reflexivity.
  Qed.
  Inductive rcv (r : router) (h : N) : router -> bool -> list out -> Prop :=
    | rcv_new r' : get h (r_info r) = None -> same (set_info r ((h, false) :: r_info r) (r_hashes r ++ [h])) r' -> rcv r h r' true [Seen h]
    | rcv_old r' : get h (r_info r) <> None -> same r r' -> rcv r h r' false [].
  Lemma receive_rcv r h c r' n o : receive_msg_hash r h c = (r', n, o) -> rcv r h r' n o.
  Proof.
    unfold receive_msg_hash, note_hash. destruct (get h (r_info r)) as [b|] eqn:G; intros H; inversion H; subst.
    - constructor 2; [congruence|apply mark_same].
    - constructor 1; [exact G|apply mark_same].
  Qed.

  (** ** the table of hashes *)
  Definition one (h k : N) : nat := if h =? k then 1%nat else 0%nat.
  (** nothing but messages with hash [h], published at most [np] and passed on at most [nr] times *)
  Definition few (h : N) (np nr : nat) (o : list out) : Prop :=
    seen o = [] /\ forall k, (count (is_publish k) o <= np * one h k)%nat /\ (count (is_relay k) o <= nr * one h k)%nat.
  Inductive heff (r r' : router) : list out -> Prop :=
    | H_none o : r_info r' = r_info r -> r_hashes r' = r_hashes r -> few 0 0 0 o -> heff r r' o
    | H_new h o : get h (r_info r) = None -> r_info r' = (h, false) :: r_info r -> r_hashes r' = r_hashes r ++ [h] -> few h 1 0 o -> heff r r' (Seen h :: o)
    | H_newrel h o : get h (r_info r) = None -> r_info r' = (h, true) :: r_info r -> r_hashes r' = r_hashes r ++ [h] -> few h 1 1 o -> heff r r' (Seen h :: o)
    | H_rel h o : get h (r_info r) = Some false -> r_info r' = settrue h (r_info r) -> r_hashes r' = r_hashes r -> few h 0 1 o -> heff r r' o
    | H_trim : r_info r' = r_info (trim max_hash_cache r) -> r_hashes r' = r_hashes (trim max_hash_cache r) -> heff r r' [].
  Lemma few_nil h a b : few h a b [].
  Proof. split; [reflexivity|]. intros k. cbn. lia. Qed.
  Lemma few_relay m v h a : m_hash m = h -> few h a 1 [Relay v m].
  Proof. intros <-. split; [reflexivity|]. intros k. unfold count, one. cbn. destruct (m_hash m =? k); cbn; lia. Qed.
  Lemma few_publish m h b : m_hash m = h -> few h 1 b [Publish m].
  Proof. intros <-. split; [reflexivity|]. intros k. unfold count, one. cbn. destruct (m_hash m =? k); cbn; lia. Qed.
  Lemma few_both m v h : m_hash m = h -> few h 1 1 [Relay v m; Publish m].
  Proof. intros <-. split; [reflexivity|]. intros k. unfold count, one. cbn. destruct (m_hash m =? k); cbn; lia. Qed.
  Lemma few_close h a b c : few h a b [Close c].
  Proof. split; [reflexivity|]. intros k. cbn. lia. Qed.
  Lemma few_sent h a b o : (forall x, In x o -> exists c m, x = Sent c m) -> few h a b o.
  Proof.
    intros H. assert (X : seen o = [] /\ forall k, count (is_publish k) o = 0%nat /\ count (is_relay k) o = 0%nat).
    { induction o as [|x o IH]; [repeat split|]. destruct (H x) as (c & m & ->); [cbn; auto|]. apply IH. intros y Y. apply H. cbn. auto. }
    split; [apply X|]. intros k. destruct X as [_ X]. destruct (X k). lia.
  Qed.
  Definition sameh (r r' : router) : Prop := r_info r' = r_info r /\ r_hashes r' = r_hashes r.
  Lemma same_sameh r r' : same r r' -> sameh r r'.
  Proof. unfold same, sameh. tauto. Qed.
  Lemma heff_same r r' r2 o : sameh r' r2 -> heff r r' o -> heff r r2 o.
  Proof.
    intros (A & B) [o' X Y Z|h o' X Y Z W|h o' X Y Z W|h o' X Y Z W|X Y].
    - apply H_none; [congruence..|exact Z].
    - apply H_new; [congruence..|exact W].
    - apply H_newrel; [congruence..|exact W].
    - eapply H_rel; [eassumption|congruence..|exact W].
    - apply H_trim; congruence.
  Qed.
  Lemma rel_heff r h r' ok o m v : rel r h r' ok o -> m_hash m = h -> heff r r' (if ok then o ++ [Relay v m] else o).
  Proof.
    intros [r2 G ->|r2 G ->|G] E.
    - apply (H_newrel _ _ h); auto. apply few_relay; exact E.
    - apply (H_rel _ _ h); auto. apply few_relay; exact E.
    - apply H_none; auto. apply few_nil.
  Qed.
  Lemma rel_heff0 r h r' ok o : rel r h r' ok o -> heff r r' o.
  Proof.
    intros [r2 G ->|r2 G ->|G].
    - apply (H_newrel _ _ h); auto. apply few_nil.
    - apply (H_rel _ _ h); auto. apply few_nil.
    - apply H_none; auto. apply few_nil.
  Qed.
  Lemma sent_only now ok l l' o : send_peers now ok l = (l', o) -> forall x, In x o -> exists c m, x = Sent c m.
  Proof.
    revert l' o. induction l as [|[c p] l IH]; intros l' o E; cbn [send_peers] in E; [inversion E; subst; intros x []|].
    destruct (send_peer now ok c p) as [p' o1] eqn:E1. destruct (send_peers now ok l) as [l2 o2] eqn:E2. inversion E; subst.
    intros x Y. apply in_app_iff in Y as [Y|Y]; [|eapply IH; eauto].
    unfold send_peer in E1. destruct (send_queue now (ok c) c p (p_queue p)) as [[p2 q2] o3] eqn:E3. inversion E1; subst. clear E E1 E2 IH.
    revert E3. generalize (p_queue p). intros q E3. revert p p2 q2 o1 E3 Y.
    induction q as [|[t i] q IH]; intros p p2 q2 o1 E3 Y; cbn [send_queue] in E3; [inversion E3; subst; destruct Y|].
    destruct (t <? now); [|inversion E3; subst; destruct Y].
    destruct (negb _ && _).
    - destruct (send_queue now (ok c) c (mark_sent _ p) q) as [[p3 q3] o3] eqn:E4. inversion E3; subst. destruct Y as [<-|Y]; eauto.
    - eauto.
  Qed.
  Lemma upd_same r c f : same r (upd r c f).
  Proof. unfold upd. destruct (get c (r_peers r)); repeat split. Qed.

  Lemma handle_heff r now s m local r' o : handle r now s m local = (r', o) -> heff r r' o.
  Proof.
    unfold RelayModel.handle. destruct (m_kind m).
    - set (io := match get (m_hash m) (r_info r) with Some _ => false | None => true end). clearbody io.
      destruct (relay_msg_hash r (m_hash m)) as [[r1 ok] o1] eqn:R. apply relay_rel in R. intros [= <- <-].
      eapply heff_same; [|eapply rel_heff; [exact R|reflexivity]]. destruct ok; [destruct (broadcast_same r1 now s m full_light io false) as (A & B & _)|];
        split; cbn; auto.
    - destruct (relay_msg_hash r (m_hash m)) as [[r1 ok] o1] eqn:R. apply relay_rel in R. destruct ok; [|intros [= <- <-]; eapply rel_heff0; exact R].
      destruct local.
      + intros [= <- <-]. eapply heff_same; [apply same_sameh, broadcast_same|]. exact (rel_heff _ _ _ _ _ m true R eq_refl).
      + intros [= <- <-]. eapply heff_same; [apply same_sameh, relay_same|]. destruct do_relay; [exact (rel_heff _ _ _ _ _ m true R eq_refl)|].
        rewrite app_nil_r. eapply rel_heff0; exact R.
    - set (r0 := if local then _ else r). assert (S0 : r_info r0 = r_info r /\ r_hashes r0 = r_hashes r) by (unfold r0; destruct local; split; reflexivity).
      clearbody r0. destruct S0 as [S1 S2]. destruct (local && (m_vdf m <=? r_vdf r0)).
      + intros [= <- <-]. apply H_none; auto. apply few_nil.
      + set (io := mem _ _). clearbody io. destruct (relay_msg_hash r0 (m_hash m)) as [[r1 ok] o1] eqn:R. apply relay_rel in R. intros [= <- <-].
        assert (X : heff r0 r1 (if ok then o1 ++ [Relay true m] else o1)) by (eapply rel_heff; [exact R|reflexivity]).
        assert (Y : heff r r1 (if ok then o1 ++ [Relay true m] else o1)).
        { destruct X as [o' X Y Z|h o' X Y Z W|h o' X Y Z W|h o' X Y Z W|X Y].
          - apply H_none; [congruence..|exact Z].
          - apply H_new; [congruence..|exact W].
          - apply H_newrel; [congruence..|exact W].
          - eapply H_rel; [rewrite <- S1; eassumption|congruence..|exact W].
          - apply H_trim; [rewrite X|rewrite Y]; unfold trim, set_info; cbn; rewrite ?S1, ?S2; reflexivity. }
        eapply heff_same; [|exact Y]. destruct ok; [destruct (broadcast_same r1 now s m full_light io false) as (A & B & _)|];
        split; cbn; auto.
    - destruct (relay_msg_hash r (m_hash m)) as [[r1 ok] o1] eqn:R. apply relay_rel in R. destruct ok; intros [= <- <-]; [|eapply rel_heff0; exact R].
      eapply heff_same; [apply same_sameh, broadcast_same|]. exact (rel_heff _ _ _ _ _ m true R eq_refl).
    - destruct (m_proof m); [|intros [= <- <-]; apply H_none; auto; apply few_nil].
      destruct (relay_msg_hash r (m_hash m)) as [[r1 ok] o1] eqn:R. apply relay_rel in R. destruct ok; intros [= <- <-]; [|eapply rel_heff0; exact R].
      eapply heff_same; [|exact (rel_heff _ _ _ _ _ m true R eq_refl)].
      destruct (broadcast_same r1 now s m full local false) as (A & B & _). split; cbn; auto.
    - destruct (relay_msg_hash r (m_hash m)) as [[r1 ok] o1] eqn:R. apply relay_rel in R. destruct ok; intros [= <- <-]; [|eapply rel_heff0; exact R].
      eapply heff_same; [apply same_sameh, broadcast_same|]. exact (rel_heff _ _ _ _ _ m true R eq_refl).
  Qed.
  Lemma other_heff r c m r' o : on_other r c m = (r', o) -> heff r r' o.
  Proof.
    unfold on_other. destruct (negb (m_ok m)); [intros [= <- <-]; apply H_none; auto; apply few_close|].
    destruct (receive_msg_hash r (m_hash m) c) as [[r1 n] o1] eqn:R. apply receive_rcv in R. intros [= <- <-].
    destruct R as [r2 G (A & B & _)|r2 G (A & B & _)].
    - apply (H_new _ _ (m_hash m)); auto. apply few_publish; reflexivity.
    - apply H_none; auto. apply few_nil.
  Qed.
  Lemma point_heff r c m r' o : on_vdf_point r c m = (r', o) -> heff r r' o.
  Proof.
    unfold on_vdf_point. destruct (get c (r_peers r)) as [p|]; [|intros [= <- <-]; apply H_none; auto; apply few_nil].
    destruct (p_master p && m_ok m); [|intros [= <- <-]; apply H_none; auto; apply few_nil].
    destruct (receive_msg_hash r (m_hash m) c) as [[r1 n] o1] eqn:R. apply receive_rcv in R. intros [= <- <-].
    destruct R as [r2 G (A & B & _)|r2 G (A & B & _)].
    - apply (H_new _ _ (m_hash m)); auto. apply few_publish; reflexivity.
    - apply H_none; auto. apply few_nil.
  Qed.
  (** after a new hash was noted, relay_msg_hash says yes *)
  Lemma rel_after r r1 h r2 ok o : get h (r_info r) = None -> sameh (set_info r ((h, false) :: r_info r) (r_hashes r ++ [h])) r1 -> rel r1 h r2 ok o ->
    ok = true /\ o = [] /\ r_info r2 = (h, true) :: r_info r /\ r_hashes r2 = r_hashes r ++ [h].
  Proof.
    intros G (A & B) R. cbn in A, B. assert (Gh : get h (r_info r1) = Some false) by (rewrite A, get_cons, N.eqb_refl; reflexivity).
    destruct R as [r' G' ->|r' G' ->|G']; try congruence. cbn. rewrite A, B. repeat split. cbn [settrue map fst]. rewrite N.eqb_refl.
    fold (settrue h (r_info r)). rewrite (settrue_none _ _ G). reflexivity.
  Qed.
  Lemma vdf_heff r now s c m r' o : on_vdf relay_target commit_delay do_relay r now s c m = (r', o) -> heff r r' o.
  Proof.
    unfold on_vdf. destruct (_ <? _); [intros [= <- <-]; apply H_none; auto; apply few_nil|].
    destruct (negb (m_ok m)); [intros [= <- <-]; apply H_none; auto; apply few_close|].
    destruct (receive_msg_hash r (m_hash m) c) as [[r1 n] o1] eqn:R. apply receive_rcv in R.
    destruct R as [r2 G S|r2 G (A & B & _)]; [|intros [= <- <-]; apply H_none; auto; apply few_nil].
    pose proof (same_sameh _ _ S) as [A B]. cbn in A, B.
    assert (N0 : heff r r2 ([Seen (m_hash m)] ++ [Publish m])) by (apply (H_new _ _ (m_hash m)); auto; apply few_publish; reflexivity).
    destruct (negb (m_sig m)); [intros [= <- <-]; apply (H_new _ _ (m_hash m)); auto; apply few_close|].
    destruct (m_short m); [|intros [= <- <-]; exact N0].
    destruct (get (m_key m) (r_timelords r2)) as [k|]; [|intros [= <- <-]; exact N0].
    destruct (0 <? k); [|intros [= <- <-]; exact N0].
    destruct (relay_msg_hash r2 (m_hash m)) as [[r3 ok] o3] eqn:R3. apply relay_rel in R3.
    destruct (rel_after r r2 _ _ _ _ G (same_sameh _ _ S) R3) as (-> & -> & I3 & Q3). intros [= <- <-].
    eapply heff_same; [apply same_sameh, relay_same|]. destruct do_relay; cbn [app].
    - apply (H_newrel _ _ (m_hash m)); auto. apply few_both; reflexivity.
    - apply (H_newrel _ _ (m_hash m)); auto. apply few_publish; reflexivity.
  Qed.
  Lemma block_heff r now s c m r' o : on_block relay_target commit_delay do_relay r now s c m = (r', o) -> heff r r' o.
  Proof.
    unfold on_block. destruct (_ <? _); [intros [= <- <-]; apply H_none; auto; apply few_nil|].
    destruct (negb (m_ok m)); [intros [= <- <-]; apply H_none; auto; apply few_close|].
    destruct (receive_msg_hash r (m_hash m) c) as [[r1 n] o1] eqn:R. apply receive_rcv in R.
    destruct R as [r2 G S|r2 G (A & B & _)]; [|intros [= <- <-]; apply H_none; auto; apply few_nil].
    pose proof (same_sameh _ _ S) as [A B]. cbn in A, B.
    assert (N0 : heff r r2 ([Seen (m_hash m)] ++ [Publish m])) by (apply (H_new _ _ (m_hash m)); auto; apply few_publish; reflexivity).
    destruct (negb (m_sig m)); [intros [= <- <-]; apply (H_new _ _ (m_hash m)); auto; apply few_close|].
    destruct (has_credit _ _); [|intros [= <- <-]; exact N0].
    match goal with |- context [relay_msg_hash ?x _] => set (rx := x) end.
    destruct (relay_msg_hash rx (m_hash m)) as [[r3 ok] o3] eqn:R3. apply relay_rel in R3.
    assert (Sx : sameh (set_info r ((m_hash m, false) :: r_info r) (r_hashes r ++ [m_hash m])) rx) by (split; cbn; auto).
    destruct (rel_after r rx _ _ _ _ G Sx R3) as (-> & -> & I3 & Q3). intros [= <- <-].
    eapply heff_same; [apply same_sameh, relay_same|]. destruct do_relay; cbn [app].
    - apply (H_newrel _ _ (m_hash m)); auto. apply few_both; reflexivity.
    - apply (H_newrel _ _ (m_hash m)); auto. apply few_publish; reflexivity.
  Qed.
  Lemma step_heff r e r' o : step r e = (r', o) -> heff r r' o.
  Proof.
    destruct e as [now s m local|now s c m|c h| |now ok|c ma|c|c|c t|c b]; cbn [RelayModel.step].
    - apply handle_heff.
    - unfold RelayModel.on_msg. destruct (m_kind m); [apply block_heff|apply other_heff|apply vdf_heff|apply point_heff|apply other_heff|apply other_heff].
    - intros [= <- <-]. destruct (mark_same r c h) as (A & B & _). apply H_none; auto. apply few_nil.
    - intros [= <- <-]. apply H_trim; reflexivity.
    - destruct (send_peers now ok (r_peers r)) as [l o'] eqn:E. intros [= <- <-]. apply H_none; [reflexivity..|]. apply few_sent. eapply sent_only; eauto.
    - intros [= <- <-]. apply H_none; [reflexivity..|]. apply few_sent. intros x Y. apply in_map_iff in Y as [z [<- _]]. eauto.
    - intros [= <- <-]. match goal with |- heff _ (upd r c ?f) _ => destruct (upd_same r c f) as (A & B & _) end. apply H_none; auto. apply few_nil.
    - intros [= <- <-]. apply H_none; [reflexivity..|apply few_nil].
    - intros [= <- <-]. match goal with |- heff _ (upd r c ?f) _ => destruct (upd_same r c f) as (A & B & _) end. apply H_none; auto. apply few_nil.
    - intros [= <- <-]. match goal with |- heff _ (upd r c ?f) _ => destruct (upd_same r c f) as (A & B & _) end. apply H_none; auto. apply few_nil.
  Qed.

  Lemma nodup_snoc {A} (l : list A) x : NoDup l -> ~ In x l -> NoDup (l ++ [x]).
  Proof.
    induction 1 as [|y l H1 H2 IH]; intros N0; cbn; [constructor; auto; constructor|]. constructor.
    - rewrite in_app_iff. cbn. intros [Y|[Y|[]]]; [contradiction|]. subst. apply N0. cbn. auto.
    - apply IH. intros Y. apply N0. cbn. auto.
  Qed.
  (** the invariant *)
  Record hinv (r : router) (o : list out) : Prop := {
    q_nd : NoDup (r_hashes r);
    q_keys : forall h, In h (r_hashes r) <-> get h (r_info r) <> None;
    q_seen : exists old, seen o = old ++ r_hashes r /\ (old = [] \/ (max_hash_cache <= length (r_hashes r))%nat);
    q_gap : forall u v w h, seen o = u ++ h :: v ++ h :: w -> (max_hash_cache <= length v)%nat;
    q_pub : forall h, (count (is_publish h) o <= count (is_seen h) o)%nat;
    q_rel : forall h, (count (is_relay h) o + (match get h (r_info r) with Some false => 1 | _ => 0 end) <= count (is_seen h) o)%nat }.
  Lemma few_count h np nr o k : few h np nr o -> (count (is_publish k) o <= np * one h k)%nat /\ (count (is_relay k) o <= nr * one h k)%nat /\ count (is_seen k) o = 0%nat.
  Proof.
    intros [S F]. split; [apply F|]. split; [apply F|]. clear F. revert S. induction o as [|x o IH]; [reflexivity|]. intros S.
    destruct x; cbn in S; try discriminate; apply IH; exact S.
  Qed.
  Lemma last_split {A} (u : list A) h v w s x : s ++ [x] = u ++ h :: v ++ h :: w ->
    (w = [] /\ x = h /\ s = u ++ h :: v) \/ (exists w', s = u ++ h :: v ++ h :: w').
  Proof.
    intros E. destruct (exists_last (l := h :: w)) as [w' [y W]]; [discriminate|].
    rewrite W in E. replace (u ++ h :: v ++ w' ++ [y]) with ((u ++ h :: v ++ w') ++ [y]) in E by (rewrite <- !app_assoc; cbn; rewrite <- app_assoc; reflexivity).
    apply app_inj_tail in E as [E ->]. destruct w' as [|z w'].
    - inversion W; subst. left. rewrite app_nil_r. auto.
    - inversion W; subst. right. exists w'. reflexivity.
  Qed.
  Lemma gap_new r o h : hinv r o -> get h (r_info r) = None -> forall u v w k, seen o ++ [h] = u ++ k :: v ++ k :: w -> (max_hash_cache <= length v)%nat.
  Proof.
    intros Q G u v w k E. apply last_split in E as [(-> & <- & E)|[w' E]]; [|eapply q_gap; eauto].
    destruct (q_seen _ _ Q) as (old & S & L). rewrite S in E.
    assert (NI : ~ In h (r_hashes r)) by (rewrite (q_keys _ _ Q); congruence).
    (* the last entries are a part of [v] *)
    assert (X : forall (a b : list N), a ++ b = u ++ h :: v -> ~ In h b -> (length b <= length v)%nat).
    { clear. intros a b E NI. destruct (le_lt_dec (length b) (length v)) as [Y|Y]; [exact Y|]. exfalso. apply NI.
      assert (Z : skipn (length (a ++ b) - length b) (a ++ b) = b).
      { rewrite app_length. replace (length a + length b - length b)%nat with (length a) by lia. rewrite skipn_app, skipn_all, Nat.sub_diag. reflexivity. }
      rewrite E in Z. rewrite app_length in Z. cbn [length] in Z.
      assert (Lb : (length a + length b = length u + S (length v))%nat) by (apply (f_equal (@length N)) in E; rewrite !app_length in E; cbn in E; exact E).
      rewrite <- Z, skipn_app. apply in_or_app. right. replace (length u + S (length v) - length b - length u)%nat with 0%nat by lia. cbn. auto. }
    destruct L as [->|L].
    - exfalso. cbn in E. apply NI. rewrite E. apply in_or_app. cbn. auto.
    - pose proof (X _ _ E NI). lia.
  Qed.
  Lemma step_hinv r e r' o o' : hinv r o -> step r e = (r', o') -> hinv r' (o ++ o').
  Proof.
    intros Q E. apply step_heff in E. pose proof Q as [A B C D P R]. destruct E as [o1 X Y F|h o1 X Y Z F|h o1 X Y Z F|h o1 X Y Z F|X Y].
    - assert (S : seen (o ++ o1) = seen o) by (rewrite seen_app, (proj1 F), app_nil_r; reflexivity).
      constructor; rewrite ?S, ?X, ?Y; auto; intros h; rewrite !count_app; destruct (few_count _ _ _ _ h F) as (F1 & F2 & F3).
      + specialize (P h). lia.
      + specialize (R h). lia.
    - assert (S : seen (o ++ Seen h :: o1) = seen o ++ [h]) by (rewrite seen_app; change (seen (Seen h :: o1)) with (h :: seen o1); rewrite (proj1 F); reflexivity).
      constructor; rewrite ?S, ?Y, ?Z.
      + apply nodup_snoc; [exact A|]. rewrite B. congruence.
      + intros k. rewrite in_app_iff, B, get_cons. cbn. destruct (h =? k) eqn:Ek; [apply N.eqb_eq in Ek; subst; split; [discriminate|auto]|]. apply N.eqb_neq in Ek. tauto.
      + destruct C as (old & S1 & L). exists old. rewrite S1, app_assoc. split; [reflexivity|]. destruct L; [auto|]. right. rewrite app_length. lia.
      + eapply gap_new; eauto.
      + intros k. rewrite !count_app. destruct (few_count _ _ _ _ k F) as (F1 & F2 & F3). specialize (P k). unfold one in *. unfold count in *. cbn. destruct (h =? k); cbn; lia.
      + intros k. rewrite !count_app. destruct (few_count _ _ _ _ k F) as (F1 & F2 & F3). specialize (R k). rewrite get_cons. unfold one, count in *. cbn.
        destruct (h =? k) eqn:Ek; cbn; [|lia]. apply N.eqb_eq in Ek. subst k. rewrite X in R. lia.
    - assert (S : seen (o ++ Seen h :: o1) = seen o ++ [h]) by (rewrite seen_app; change (seen (Seen h :: o1)) with (h :: seen o1); rewrite (proj1 F); reflexivity).
      constructor; rewrite ?S, ?Y, ?Z.
      + apply nodup_snoc; [exact A|]. rewrite B. congruence.
      + intros k. rewrite in_app_iff, B, get_cons. cbn. destruct (h =? k) eqn:Ek; [apply N.eqb_eq in Ek; subst; split; [discriminate|auto]|]. apply N.eqb_neq in Ek. tauto.
      + destruct C as (old & S1 & L). exists old. rewrite S1, app_assoc. split; [reflexivity|]. destruct L; [auto|]. right. rewrite app_length. lia.
      + eapply gap_new; eauto.
      + intros k. rewrite !count_app. destruct (few_count _ _ _ _ k F) as (F1 & F2 & F3). specialize (P k). unfold one in *. unfold count in *. cbn. destruct (h =? k); cbn; lia.
      + intros k. rewrite !count_app. destruct (few_count _ _ _ _ k F) as (F1 & F2 & F3). specialize (R k). rewrite get_cons. unfold one, count in *. cbn.
        destruct (h =? k) eqn:Ek; cbn; lia.
    - assert (S : seen (o ++ o1) = seen o) by (rewrite seen_app, (proj1 F), app_nil_r; reflexivity).
      constructor; rewrite ?S, ?Y, ?Z; auto.
      + intros k. rewrite B, get_settrue. destruct (k =? h) eqn:Ek; [|tauto]. destruct (get k (r_info r)); cbn; [|tauto]. split; discriminate.
      + intros k. rewrite !count_app. destruct (few_count _ _ _ _ k F) as (F1 & F2 & F3). specialize (P k). lia.
      + intros k. rewrite !count_app. destruct (few_count _ _ _ _ k F) as (F1 & F2 & F3). specialize (R k). rewrite get_settrue, N.eqb_sym. unfold one in *.
        destruct (h =? k) eqn:Ek; [|lia]. apply N.eqb_eq in Ek. subst k. rewrite X in *. cbn [option_map]. lia.
    - rewrite app_nil_r. unfold trim, set_info in X, Y. cbn [r_info r_hashes] in X, Y. set (n := (length (r_hashes r) - max_hash_cache)%nat) in *.
      pose proof (firstn_skipn n (r_hashes r)) as FS.
      assert (DJ : forall h, In h (firstn n (r_hashes r)) -> ~ In h (skipn n (r_hashes r))).
      { intros h H1 H2. rewrite <- FS in A. revert H1 H2 A. generalize (firstn n (r_hashes r)) (skipn n (r_hashes r)). intros a b. induction a as [|x a IH]; [intros []|].
        cbn. intros [->|H1] H2 A; inversion A as [|? ? Y1 Y2]; subst; [apply Y1; apply in_or_app; auto|]. apply IH; auto. }
      assert (GF : forall h, get h (r_info r') = if mem h (firstn n (r_hashes r)) then None else get h (r_info r)).
      { intros h. rewrite X. clear. induction (r_info r) as [|[k b] i IH]; [destruct (mem h _); reflexivity|]. cbn [filter fst].
        destruct (mem k (firstn n (r_hashes r))) eqn:M; cbn [negb].
        - rewrite IH, get_cons. destruct (k =? h) eqn:Ek; [|reflexivity]. apply N.eqb_eq in Ek. subst k. rewrite M. reflexivity.
        - rewrite !get_cons, IH. destruct (k =? h) eqn:Ek; [|reflexivity]. apply N.eqb_eq in Ek. subst k. rewrite M. reflexivity. }
      constructor; auto.
      + rewrite Y. rewrite <- FS in A. revert A. generalize (firstn n (r_hashes r)) (skipn n (r_hashes r)). intros a b. induction a as [|x a IH]; [auto|]. intros A. inversion A; subst. auto.
      + intros h. rewrite GF, Y. destruct (mem h (firstn n (r_hashes r))) eqn:M.
        * apply mem_In in M. split; [intros H; exfalso; exact (DJ h M H)|congruence].
        * apply mem_false in M. rewrite <- B. rewrite <- FS at 2. rewrite in_app_iff. tauto.
      + destruct C as (old & S1 & L). exists (old ++ firstn n (r_hashes r)). rewrite S1, Y, <- app_assoc, FS. split; [reflexivity|].
        destruct (Nat.eq_dec n 0) as [N0|N0].
        * rewrite N0. cbn [firstn skipn]. rewrite app_nil_r. exact L.
        * right. rewrite skipn_length. unfold n in *. lia.
      + intros h. specialize (R h). rewrite GF. destruct (mem h _); [|exact R]. destruct (get h (r_info r)) as [[|]|]; lia.
  Qed.
  Lemma run_snoc l e : run (l ++ [e]) = step_out max_hash_cache max_sent_cache relay_target commit_delay do_relay (run l) e.
  Proof. unfold RelayModel.run. rewrite fold_left_app. reflexivity. Qed.
  Lemma run_hinv l r o : run l = (r, o) -> hinv r o.
  Proof.
    revert r o. induction l as [|e l IH] using rev_ind; intros r o E.
    - inversion E; subst. constructor; cbn; auto; try (intros; lia).
      + constructor.
      + intros h. split; [intros []|intros H; apply H; reflexivity].
      + exists []. auto.
      + intros [|? ?] v w h H; discriminate.
    - rewrite run_snoc in E. unfold step_out in E. destruct (run l) as [r1 o1] eqn:E1. destruct (step r1 e) as [r2 o2] eqn:E2. inversion E; subst.
      eapply step_hinv; [apply IH; reflexivity|exact E2].
  Qed.
End P.
