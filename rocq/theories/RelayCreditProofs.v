(** Proofs about RelayModel: where messages come from, and credits. *)
Require Import List Arith NArith Bool Lia.
Require Import Verif.FetchModel Verif.FetchProofs Verif.RelayModel Verif.RelaySpec Verif.RelayProofs.
Import List ListNotations.
Open Scope N_scope.

Section P.
  Variables (max_hash_cache max_sent_cache : nat) (relay_target commit_delay : N) (do_relay : bool).
  Notation broadcast := (broadcast relay_target).
  Notation relay := (relay relay_target do_relay).
  Notation handle := (handle relay_target do_relay).
  Notation on_msg := (on_msg relay_target commit_delay do_relay).
  Notation step := (step max_hash_cache max_sent_cache relay_target commit_delay do_relay).
  Notation run := (run max_hash_cache max_sent_cache relay_target commit_delay do_relay).

  Definition hc (k : N * N) (r : router) : nat := if has_credit k (r_farmers r) then 1%nat else 0%nat.
  Definition tc (k : N) (r : router) : N := match get k (r_timelords r) with Some n => n | None => 0 end.
  Definition b1 (b : bool) : nat := if b then 1%nat else 0%nat.

  (** what a step may show *)
  Definition from_event (e : event) (x : out) : Prop :=
    match x with
    | Publish m => exists now s c, e = ERecv now s c m /\ m_ok m = true /\ (m_kind m = KBlock \/ m_kind m = KVdf -> m_sig m = true)
    | Relay false m => exists now s c, e = ERecv now s c m /\ m_ok m = true /\ m_sig m = true /\ (m_kind m = KBlock \/ m_kind m = KVdf)
    | Relay true m => exists now s local, e = EHandle now s m local
    | Sent c m => (exists now ok, e = ESend now ok) \/ exists b, e = EConnect c b
    | _ => True
    end.
  Record ceff (r : router) (e : event) (r' : router) (o : list out) : Prop := {
    c_from : forall x, In x o -> from_event e x;
    c_block : forall v k, (count (early_block v k) o + hc (v, k) r' <= hc (v, k) r + b1 (proof_of v k e))%nat;
    c_vdf : forall k, N.of_nat (count (early_vdf k) o) + tc k r' <= tc k r + N.of_nat (b1 (vdf_of k e)) }.

  Lemma pair_eqb_eq a b : pair_eqb a b = true <-> a = b.
  Proof. destruct a, b. unfold pair_eqb. cbn. rewrite andb_true_iff, !N.eqb_eq. split; [intros [-> ->]; reflexivity|intros [= -> ->]; auto]. Qed.
  Lemma has_credit_in k l : has_credit k l = true <-> In k l.
  Proof.
    unfold has_credit. rewrite existsb_exists. split.
    - intros [x [H E]]. apply pair_eqb_eq in E. subst. exact H.
    - intros H. exists k. split; [exact H|]. apply pair_eqb_eq. reflexivity.
  Qed.
  Lemma hc_le k r r' : (forall x, In x (r_farmers r') -> In x (r_farmers r)) -> (hc k r' <= hc k r)%nat.
  Proof.
    intros H. unfold hc. destruct (has_credit k (r_farmers r')) eqn:E; [|lia]. apply has_credit_in, H, has_credit_in in E. rewrite E. lia.
  Qed.
  Lemma get_erase {A} x y (m : list (N * A)) : get x (erase y m) = if x =? y then None else get x m.
  Proof.
    unfold erase. induction m as [|[k v] m IH]; [destruct (x =? y); reflexivity|]. cbn [filter fst]. destruct (k =? y) eqn:E; cbn [negb].
    - rewrite IH, get_cons. apply N.eqb_eq in E. subst k. rewrite (N.eqb_sym y x). destruct (x =? y); reflexivity.
    - rewrite !get_cons, IH. destruct (k =? x) eqn:E2; [|reflexivity]. apply N.eqb_eq in E2. subst k. rewrite E. reflexivity.
  Qed.
  Lemma get_put {A} x y (v : A) m : get x (put y v m) = if x =? y then Some v else get x m.
  Proof. unfold put. rewrite get_cons, get_erase, (N.eqb_sym y x). destruct (x =? y); reflexivity. Qed.

  Definition samec (r r' : router) : Prop := r_farmers r' = r_farmers r /\ r_timelords r' = r_timelords r.
  Lemma same_samec r r' : same r r' -> samec r r'. Proof. unfold same, samec. tauto. Qed.
  Lemma samec_trans a b c : samec a b -> samec b c -> samec a c. Proof. unfold samec. intuition congruence. Qed.
  Lemma rel_samec r h r' ok o : rel r h r' ok o -> samec r r'.
  Proof. intros [r2 G ->|r2 G ->|G]; split; reflexivity. Qed.
  Lemma rcv_samec r h r' ok o : rcv r h r' ok o -> samec r r'.
  Proof. intros [r2 G S|r2 G S]; apply same_samec in S; exact S. Qed.
  Lemma rel_seen r h r' ok o : rel r h r' ok o -> o = [] \/ o = [Seen h].
  Proof. intros [r2 G ->|r2 G ->|G]; auto. Qed.
  Lemma rcv_seen r h r' ok o : rcv r h r' ok o -> o = [] \/ o = [Seen h].
  Proof. intros [r2 G S|r2 G S]; auto. Qed.
  Lemma hc_same k r r' : samec r r' -> hc k r' = hc k r.
  Proof. intros [H _]. unfold hc. rewrite H. reflexivity. Qed.
  Lemma tc_same k r r' : samec r r' -> tc k r' = tc k r.
  Proof. intros [_ H]. unfold tc. rewrite H. reflexivity. Qed.

  (** no early message *)
  Definition quiet (o : list out) : Prop := forall x, In x o -> match x with Relay false _ => False | _ => True end.
  Lemma quiet_count o : quiet o -> (forall v k, count (early_block v k) o = 0%nat) /\ forall k, count (early_vdf k) o = 0%nat.
  Proof.
    intros H. induction o as [|x o IH]; [split; reflexivity|].
    assert (Q : quiet o) by (intros y Y; apply H; cbn; auto). destruct (IH Q) as [A B]. specialize (H x (or_introl eq_refl)).
    unfold count in *. destruct x as [| |[]| |]; cbn in *; try contradiction; auto.
  Qed.
  Lemma ceff_quiet r e r' o : (forall x, In x o -> from_event e x) -> quiet o ->
    (forall k, (hc k r' <= hc k r + b1 (proof_of (fst k) (snd k) e))%nat) -> (forall k, tc k r' <= tc k r + N.of_nat (b1 (vdf_of k e))) -> ceff r e r' o.
  Proof.
    intros F Q A B. destruct (quiet_count o Q) as [X Y]. constructor; [exact F| |].
    - intros v k. rewrite X. specialize (A (v, k)). cbn [fst snd] in A. lia.
    - intros k. rewrite Y. specialize (B k). lia.
  Qed.
  Lemma ceff_same r e r' o : (forall x, In x o -> from_event e x) -> quiet o -> samec r r' -> ceff r e r' o.
  Proof. intros F Q S. apply ceff_quiet; auto; intros k; rewrite ?(hc_same _ _ _ S), ?(tc_same _ _ _ S); lia. Qed.

  Ltac in_cases := repeat match goal with
    | H : In _ (_ ++ _) |- _ => apply in_app_iff in H
    | H : _ \/ _ |- _ => destruct H
    | H : In _ [] |- _ => destruct H
    | H : In _ (_ :: _) |- _ => cbn [In] in H
    | H : _ = ?x |- _ => is_var x; subst x
    | H : False |- _ => destruct H
    end.
  Lemma seen_outs r h r' ok o v m : rel r h r' ok o -> forall x, In x (if ok then o ++ [Relay v m] else o) -> x = Seen h \/ x = Relay v m.
  Proof. intros R x H. apply rel_seen in R as [->| ->]; destruct ok; cbn in H; intuition. Qed.

  Lemma handle_ceff r now s m local r' o : handle r now s m local = (r', o) -> ceff r (EHandle now s m local) r' o.
  Proof.
    assert (FR : forall x h, x = Seen h \/ x = Relay true m -> from_event (EHandle now s m local) x) by (intros x h [->| ->]; cbn; eauto).
    assert (QU : forall o0 h, (forall x, In x o0 -> x = Seen h \/ x = Relay true m) -> quiet o0) by (intros o0 h H x Y; destruct (H x Y) as [->| ->]; exact Logic.I).
    unfold RelayModel.handle. destruct (m_kind m) eqn:K.
    - set (io := match get (m_hash m) (r_info r) with Some _ => false | None => true end). clearbody io.
      destruct (relay_msg_hash r (m_hash m)) as [[r1 ok] o1] eqn:R. apply relay_rel in R. intros [= <- <-].
      pose proof (seen_outs _ _ _ _ _ true m R) as O. pose proof (rel_samec _ _ _ _ _ R) as S.
      match goal with |- context [mk_router _ _ _ _ (filter _ (r_farmers ?x))] => set (r2 := x) end.
      assert (S2 : samec r r2) by (unfold r2; destruct ok; [eapply samec_trans; [exact S|]; apply same_samec, broadcast_same|exact S]).
      apply ceff_quiet; [intros x Y; eapply FR, O, Y|eapply QU; exact O| |].
      + intros k. etransitivity; [|apply Nat.le_add_r]. rewrite <- (hc_same k _ _ S2). apply hc_le. cbn. intros x Y. apply filter_In in Y. tauto.
      + intros k. etransitivity; [|apply N.le_add_r]. rewrite <- (tc_same k _ _ S2). unfold tc. cbn. lia.
    - destruct (relay_msg_hash r (m_hash m)) as [[r1 ok] o1] eqn:R. apply relay_rel in R.
      pose proof (seen_outs _ _ _ _ _ true m R) as O. pose proof (rel_samec _ _ _ _ _ R) as S. destruct ok.
      + destruct local; intros [= <- <-].
        * apply ceff_same; [intros x Y; eapply FR, O, Y|eapply QU; exact O|]. eapply samec_trans; [exact S|]. apply same_samec, broadcast_same.
        * assert (O2 : forall x, In x (o1 ++ (if do_relay then [Relay true m] else [])) -> x = Seen (m_hash m) \/ x = Relay true m).
          { intros x Y. apply O. apply in_app_iff in Y as [Y|Y]; apply in_or_app; [auto|]. destruct do_relay; [auto|destruct Y]. }
          apply ceff_same; [intros x Y; eapply FR, O2, Y|eapply QU; exact O2|]. eapply samec_trans; [exact S|]. apply same_samec, relay_same.
      + intros [= <- <-]. apply ceff_same; [intros x Y; eapply FR, O, Y|eapply QU; exact O|exact S].
    - set (r0 := if local then _ else r). assert (S0 : samec r r0) by (unfold r0; destruct local; split; reflexivity). clearbody r0.
      destruct (local && (m_vdf m <=? r_vdf r0)); [intros [= <- <-]; apply ceff_same; [intros x []|intros x []|exact S0]|].
      set (io := mem _ _). clearbody io. destruct (relay_msg_hash r0 (m_hash m)) as [[r1 ok] o1] eqn:R. apply relay_rel in R.
      pose proof (seen_outs _ _ _ _ _ true m R) as O. pose proof (samec_trans _ _ _ S0 (rel_samec _ _ _ _ _ R)) as S. intros [= <- <-].
      match goal with |- context [put _ 1 (r_timelords ?x)] => set (r2 := x) end.
      assert (S2 : samec r r2) by (unfold r2; destruct ok; [eapply samec_trans; [exact S|]; apply same_samec, broadcast_same|exact S]).
      apply ceff_quiet; [intros x Y; eapply FR, O, Y|eapply QU; exact O| |].
      + intros k. etransitivity; [|apply Nat.le_add_r]. rewrite <- (hc_same k _ _ S2). apply hc_le. auto.
      + intros k. rewrite <- (tc_same k _ _ S2). unfold tc. cbn [r_timelords]. rewrite get_put. cbn [vdf_of]. rewrite K, (N.eqb_sym (m_key m) k). destruct (k =? m_key m); cbn; lia.
    - destruct (relay_msg_hash r (m_hash m)) as [[r1 ok] o1] eqn:R. apply relay_rel in R.
      pose proof (seen_outs _ _ _ _ _ true m R) as O. pose proof (rel_samec _ _ _ _ _ R) as S. destruct ok; intros [= <- <-].
      + apply ceff_same; [intros x Y; eapply FR, O, Y|eapply QU; exact O|]. eapply samec_trans; [exact S|]. apply same_samec, broadcast_same.
      + apply ceff_same; [intros x Y; eapply FR, O, Y|eapply QU; exact O|exact S].
    - destruct (m_proof m); [|intros [= <- <-]; apply ceff_same; [intros x []|intros x []|split; reflexivity]].
      destruct (relay_msg_hash r (m_hash m)) as [[r1 ok] o1] eqn:R. apply relay_rel in R.
      pose proof (seen_outs _ _ _ _ _ true m R) as O. pose proof (rel_samec _ _ _ _ _ R) as S. destruct ok; intros [= <- <-].
      + match goal with |- context [set_credit ?x] => set (r2 := x) end.
        assert (S2 : samec r r2) by (eapply samec_trans; [exact S|]; apply same_samec, broadcast_same).
        apply ceff_quiet; [intros x Y; eapply FR, O, Y|eapply QU; exact O| |].
        * intros [v k]. rewrite <- (hc_same _ _ _ S2). cbn [fst snd proof_of]. rewrite K. unfold hc. cbn [set_credit r_farmers kind_eqb andb].
          destruct (has_credit (m_vdf m, m_key m) (r_farmers r2)) eqn:HC; [lia|]. cbn [has_credit existsb]. unfold pair_eqb at 1. cbn [fst snd].
          rewrite (N.eqb_sym v), (N.eqb_sym k). destruct ((m_vdf m =? v) && (m_key m =? k)); cbn [orb b1]; [lia|]. fold (has_credit (v, k) (r_farmers r2)). lia.
        * intros k. rewrite <- (tc_same k _ _ S2). unfold tc. cbn. lia.
      + apply ceff_same; [intros x Y; eapply FR, O, Y|eapply QU; exact O|exact S].
    - destruct (relay_msg_hash r (m_hash m)) as [[r1 ok] o1] eqn:R. apply relay_rel in R.
      pose proof (seen_outs _ _ _ _ _ true m R) as O. pose proof (rel_samec _ _ _ _ _ R) as S. destruct ok; intros [= <- <-].
      + apply ceff_same; [intros x Y; eapply FR, O, Y|eapply QU; exact O|]. eapply samec_trans; [exact S|]. apply same_samec, broadcast_same.
      + apply ceff_same; [intros x Y; eapply FR, O, Y|eapply QU; exact O|exact S].
  Qed.

  Lemma msg_ceff r now s c m r' o : on_msg r now s c m = (r', o) -> ceff r (ERecv now s c m) r' o.
  Proof.
    set (e := ERecv now s c m).
    assert (OT : forall r' o, m_kind m <> KBlock -> m_kind m <> KVdf -> on_other r c m = (r', o) -> ceff r e r' o).
    { intros r2 o2 K1 K2. unfold on_other. destruct (m_ok m) eqn:OK; cbn [negb].
      2:{ intros [= <- <-]. apply ceff_same; [intros x [<-|[]]; exact Logic.I|intros x [<-|[]]; exact Logic.I|split; reflexivity]. }
      destruct (receive_msg_hash r (m_hash m) c) as [[r1 n] o1] eqn:R. apply receive_rcv in R. intros [= <- <-].
      pose proof (rcv_samec _ _ _ _ _ R) as S. apply rcv_seen in R.
      apply ceff_same; [| |exact S]; intros x Y; (destruct R as [->| ->]; destruct n; cbn in Y; intuition; subst; cbn; auto);
      (exists now, s, c; split; [reflexivity|]; split; [exact OK|]; tauto). }
    unfold RelayModel.on_msg. destruct (m_kind m) eqn:K; try (apply OT; congruence).
    - unfold on_block. destruct (_ <? _); [intros [= <- <-]; apply ceff_same; [intros x []|intros x []|split; reflexivity]|].
      destruct (m_ok m) eqn:OK; cbn [negb]; [|intros [= <- <-]; apply ceff_same; [intros x [<-|[]]; exact Logic.I|intros x [<-|[]]; exact Logic.I|split; reflexivity]].
      destruct (receive_msg_hash r (m_hash m) c) as [[r1 n] o1] eqn:R. apply receive_rcv in R.
      pose proof (rcv_samec _ _ _ _ _ R) as S. apply rcv_seen in R.
      destruct n; [|intros [= <- <-]; apply ceff_same; [| |exact S]; intros x Y; destruct R as [->| ->]; cbn in Y; intuition; subst; exact Logic.I].
      destruct (m_sig m) eqn:SG; cbn [negb]; [|intros [= <- <-]; apply ceff_same; [| |exact S]; intros x Y; destruct R as [->| ->]; cbn in Y; intuition; subst; exact Logic.I].
      assert (FP : from_event e (Publish m)) by (exists now, s, c; auto).
      assert (FL : from_event e (Relay false m)) by (exists now, s, c; auto).
      destruct (has_credit (m_vdf m, m_key m) (r_farmers r1)) eqn:HC.
      2:{ intros [= <- <-]. apply ceff_same; [| |exact S]; intros x Y; (destruct R as [->| ->]; cbn in Y; intuition; subst; auto; exact Logic.I). }
      match goal with |- context [relay_msg_hash ?x _] => set (rx := x) end.
      destruct (relay_msg_hash rx (m_hash m)) as [[r3 ok] o3] eqn:R3. apply relay_rel in R3. pose proof (rel_samec _ _ _ _ _ R3) as S3. apply rel_seen in R3.
      assert (HX : forall v k, (hc (v, k) r3 + b1 ((m_vdf m =? v)%N && (m_key m =? k)%N) <= hc (v, k) r)%nat).
      { intros v k. rewrite (hc_same _ _ _ S3), <- (hc_same _ _ _ S). unfold hc at 1. unfold rx. cbn [set_credit r_farmers].
        destruct ((m_vdf m =? v) && (m_key m =? k)) eqn:E.
        - apply andb_true_iff in E as [E1 E2]. apply N.eqb_eq in E1, E2. subst v k. cbn [b1]. unfold hc. rewrite HC.
          destruct (has_credit _ (use_credit _ _)) eqn:U; [|lia]. apply has_credit_in in U. unfold use_credit in U. apply filter_In in U as [_ U].
          rewrite (proj2 (pair_eqb_eq _ _) eq_refl) in U. discriminate.
        - cbn [b1]. rewrite Nat.add_0_r. unfold hc. destruct (has_credit _ (use_credit _ _)) eqn:U; [|lia]. apply has_credit_in in U. unfold use_credit in U. apply filter_In in U as [U _].
          apply has_credit_in in U. rewrite U. lia. }
      assert (TX : forall k, tc k r3 = tc k r) by (intros k; rewrite (tc_same _ _ _ S3), <- (tc_same _ _ _ S); reflexivity).
      destruct ok; intros [= <- <-].
      + constructor.
        * intros x Y. destruct R as [->| ->], R3 as [->| ->]; destruct do_relay; cbn in Y; intuition; subst; auto; exact Logic.I.
        * intros v k. rewrite (hc_same _ _ _ (same_samec _ _ (relay_same relay_target do_relay r3 now s m full_light))). specialize (HX v k).
          etransitivity; [|apply Nat.le_add_r]. etransitivity; [|exact HX].
          destruct R as [->| ->], R3 as [->| ->]; destruct do_relay; unfold count; cbn [app filter early_block]; rewrite ?K; cbn [kind_eqb andb];
          destruct ((m_vdf m =? v) && (m_key m =? k)); cbn [length b1]; lia.
        * intros k. rewrite (tc_same _ _ _ (same_samec _ _ (relay_same relay_target do_relay r3 now s m full_light))), TX.
          destruct R as [->| ->], R3 as [->| ->]; destruct do_relay; unfold count; cbn [app filter early_vdf]; rewrite ?K; cbn [kind_eqb andb length]; lia.
      + apply ceff_quiet.
        * intros x Y. destruct R as [->| ->], R3 as [->| ->]; cbn in Y; intuition; subst; auto; exact Logic.I.
        * intros x Y. destruct R as [->| ->], R3 as [->| ->]; cbn in Y; intuition; subst; auto; exact Logic.I.
        * intros [v k]. specialize (HX v k). lia.
        * intros k. rewrite TX. lia.
    - unfold on_vdf. destruct (_ <? _); [intros [= <- <-]; apply ceff_same; [intros x []|intros x []|split; reflexivity]|].
      destruct (m_ok m) eqn:OK; cbn [negb]; [|intros [= <- <-]; apply ceff_same; [intros x [<-|[]]; exact Logic.I|intros x [<-|[]]; exact Logic.I|split; reflexivity]].
      destruct (receive_msg_hash r (m_hash m) c) as [[r1 n] o1] eqn:R. apply receive_rcv in R.
      pose proof (rcv_samec _ _ _ _ _ R) as S. apply rcv_seen in R.
      destruct n; [|intros [= <- <-]; apply ceff_same; [| |exact S]; intros x Y; destruct R as [->| ->]; cbn in Y; intuition; subst; exact Logic.I].
      destruct (m_sig m) eqn:SG; cbn [negb]; [|intros [= <- <-]; apply ceff_same; [| |exact S]; intros x Y; destruct R as [->| ->]; cbn in Y; intuition; subst; exact Logic.I].
      assert (FP : from_event e (Publish m)) by (exists now, s, c; auto).
      assert (FL : from_event e (Relay false m)) by (exists now, s, c; auto).
      assert (NO : ceff r e r1 (o1 ++ [Publish m])).
      { apply ceff_same; [| |exact S]; intros x Y; (destruct R as [->| ->]; cbn in Y; intuition; subst; auto; exact Logic.I). }
      destruct (m_short m); [|intros [= <- <-]; exact NO].
      destruct (get (m_key m) (r_timelords r1)) as [k0|] eqn:G; [|intros [= <- <-]; exact NO].
      destruct (0 <? k0) eqn:P; [|intros [= <- <-]; exact NO]. apply N.ltb_lt in P.
      destruct (relay_msg_hash r1 (m_hash m)) as [[r3 ok] o3] eqn:R3. apply relay_rel in R3. pose proof (rel_samec _ _ _ _ _ R3) as S3. apply rel_seen in R3.
      destruct ok; intros [= <- <-].
      + match goal with |- context [relay (set_credit ?a ?b ?d)] => set (rx := set_credit a b d) end.
        assert (RS : samec rx (relay rx now s m full_light)) by (apply same_samec, relay_same).
        assert (HX : forall k, hc k rx = hc k r).
        { intros k. etransitivity; [|apply (hc_same _ _ _ S)]. etransitivity; [|apply (hc_same _ _ _ S3)]. reflexivity. }
        assert (TX : forall k, tc k rx + N.of_nat (b1 (m_key m =? k)) <= tc k r).
        { intros k. rewrite <- (tc_same _ _ _ S). unfold tc, rx. cbn [set_credit r_timelords]. destruct S3 as [_ S3]. rewrite S3, get_put, (N.eqb_sym (m_key m) k).
          destruct (k =? m_key m) eqn:E; cbn [b1]; [|lia]. apply N.eqb_eq in E. subst k. rewrite G. lia. }
        constructor.
        * intros x Y. destruct R as [->| ->], R3 as [->| ->]; destruct do_relay; cbn in Y; intuition; subst; auto; exact Logic.I.
        * intros v k. rewrite (hc_same _ _ _ RS), HX. etransitivity; [|apply Nat.le_add_r].
          destruct R as [->| ->], R3 as [->| ->]; destruct do_relay; unfold count; cbn [app filter early_block]; rewrite ?K; cbn [kind_eqb andb length]; lia.
        * intros k. rewrite (tc_same _ _ _ RS). specialize (TX k). etransitivity; [|apply N.le_add_r]. etransitivity; [|exact TX].
          destruct R as [->| ->], R3 as [->| ->]; destruct do_relay; unfold count; cbn [app filter early_vdf]; rewrite ?K; cbn [kind_eqb andb];
          destruct (m_key m =? k); cbn [length b1]; lia.
      + apply ceff_same; [| |eapply samec_trans; eauto].
        * intros x Y. destruct R as [->| ->], R3 as [->| ->]; cbn in Y; intuition; subst; auto; exact Logic.I.
        * intros x Y. destruct R as [->| ->], R3 as [->| ->]; cbn in Y; intuition; subst; auto; exact Logic.I.
    - unfold on_vdf_point. destruct (get c (r_peers r)) as [p|]; [|intros [= <- <-]; apply ceff_same; [intros x []|intros x []|split; reflexivity]].
      destruct (p_master p); cbn [andb]; [|intros [= <- <-]; apply ceff_same; [intros x []|intros x []|split; reflexivity]].
      destruct (m_ok m) eqn:OK; [|intros [= <- <-]; apply ceff_same; [intros x []|intros x []|split; reflexivity]].
      destruct (receive_msg_hash r (m_hash m) c) as [[r1 n] o1] eqn:R. apply receive_rcv in R. intros [= <- <-].
      pose proof (rcv_samec _ _ _ _ _ R) as S. apply rcv_seen in R.
      apply ceff_same; [| |exact S]; intros x Y; (destruct R as [->| ->]; destruct n; cbn in Y; intuition; subst; cbn; auto);
      (exists now, s, c; split; [reflexivity|]; split; [exact OK|]; rewrite K; intros [Z|Z]; discriminate).
  Qed.
  Lemma step_ceff r e r' o : step r e = (r', o) -> ceff r e r' o.
  Proof.
    assert (ID : forall e r', samec r r' -> ceff r e r' []) by (intros; apply ceff_same; [intros x []|intros x []|assumption]).
    destruct e as [now s m local|now s c m|c h| |now ok|c ma|c|c|c t|c b]; cbn [RelayModel.step].
    - apply handle_ceff.
    - apply msg_ceff.
    - intros [= <- <-]. apply ID. apply same_samec, mark_same.
    - intros [= <- <-]. apply ID. split; reflexivity.
    - destruct (send_peers now ok (r_peers r)) as [l o'] eqn:E. intros [= <- <-]. pose proof (sent_only _ _ _ _ _ E) as SO.
      apply ceff_same; [| |split; reflexivity]; intros x Y; destruct (SO x Y) as (c & m & ->); cbn; eauto.
    - intros [= <- <-]. apply ceff_same; [| |split; reflexivity]; intros x Y; apply in_map_iff in Y as [z [<- _]]; cbn; eauto.
    - intros [= <- <-]. apply ID. apply same_samec, upd_same.
    - intros [= <- <-]. apply ID. split; reflexivity.
    - intros [= <- <-]. apply ID. apply same_samec, upd_same.
    - intros [= <- <-]. apply ID. apply same_samec, upd_same.
  Qed.
  Lemma run_credit l r o : run l = (r, o) ->
    (forall x, In x o -> exists e, In e l /\ from_event e x) /\
    (forall v k, (count (early_block v k) o + hc (v, k) r <= count (proof_of v k) l)%nat) /\
    (forall k, N.of_nat (count (early_vdf k) o) + tc k r <= N.of_nat (count (vdf_of k) l)).
  Proof.
    revert r o. induction l as [|e l IH] using rev_ind; intros r o E.
    - inversion E; subst. split; [intros x []|]. split; intros; cbn; lia.
    - rewrite run_snoc in E. unfold step_out in E. destruct (run l) as [r1 o1] eqn:E1. destruct (step r1 e) as [r2 o2] eqn:E2. inversion E; subst.
      destruct (IH _ _ eq_refl) as (A & B & C). apply step_ceff in E2 as [X Y Z]. split; [|split].
      + intros x H. apply in_app_iff in H as [H|H].
        * destruct (A x H) as [e' [H1 H2]]. exists e'. split; [apply in_or_app; auto|exact H2].
        * exists e. split; [apply in_or_app; cbn; auto|]. auto.
      + intros v k. rewrite !count_app. specialize (B v k). specialize (Y v k). unfold b1, count in *. cbn [filter]. destruct (proof_of v k e); cbn [length]; lia.
      + intros k. rewrite !count_app. specialize (C k). specialize (Z k). unfold b1, count in *. cbn [filter]. destruct (vdf_of k e); cbn [length]; lia.
  Qed.
End P.
