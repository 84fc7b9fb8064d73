(** Lemmas for C118 and C119 *)
Require Import List Arith NArith Bool Lia.
From Verif Require Import BytesLib EngineModel EngineUpper SigModel SgnModel SgnSpec.
Import ListNotations.
Open Scope N_scope.

Lemma addr_eqb_eq a b : addr_eqb a b = true <-> a = b.
Proof. destruct (addr_eqb_spec a b); split; congruence. Qed.
Lemma lookup_cons {V} (a b : addr) (v : V) m : lookup ((a, v) :: m) b = if addr_eqb a b then Some v else lookup m b.
Proof. unfold lookup. cbn. destruct (addr_eqb a b); reflexivity. Qed.
Lemma set_nth_app {A} (x y : A) l r : set_nth (List.length l) x (l ++ y :: r) = l ++ x :: r.
Proof. induction l; cbn; [reflexivity|]. now rewrite IHl. Qed.
Lemma set_nth_length {A} i (x : A) l : List.length (set_nth i x l) = List.length l.
Proof. revert i. induction l; destruct i; cbn; auto. Qed.
Lemma resize_length {A} (d : A) n l : List.length (resize d n l) = n.
Proof. unfold resize. rewrite app_length, firstn_length, repeat_length. lia. Qed.

Lemma Forall2_len {A B} (R : A -> B -> Prop) l l' : Forall2 R l l' -> List.length l = List.length l'.
Proof. intros F. induction F; cbn; congruence. Qed.

Section LOCK.
  Variables (get_addr : bytes -> addr) (derive : bytes -> nat -> bytes * bytes) (finger_print : bytes -> bytes) (cfg : config).
  Notation address_of := (address_of get_addr derive).
  Notation loop := (derive_loop get_addr derive cfg).
  Notation right := (right get_addr derive finger_print cfg).
  Notation opened := (opened get_addr derive cfg).
  Notation unlock := (unlock get_addr derive finger_print cfg).
  Notation no_twins := (no_twins get_addr derive).
  Notation n := (c_num_addresses cfg).

  Definition entries (p : bytes) (l : list nat) : list (addr * nat) := map (fun i => (address_of p i, i)) l.
  Lemma loop_later p first k : forall i w A K ra rk, (0 < i)%nat -> w_addresses w = A ++ ra -> List.length A = i -> List.length ra = k ->
    w_keypairs w = K ++ rk -> List.length K = i -> List.length rk = k ->
    loop p first k i w = Ret (mk_wallet (A ++ map (address_of p) (seq i k)) (K ++ map (derive p) (seq i k)) (rev (entries p (seq i k)) ++ w_map w)).
  Proof.
    induction k; intros i w A K ra rk Hi Ha La Lra Hk Lk Lrk.
    - destruct ra, rk; cbn in Lra, Lrk; try lia. cbn. rewrite app_nil_r in Ha, Hk. rewrite !app_nil_r, <- Ha, <- Hk. now destruct w.
    - destruct ra as [|x ra], rk as [|y rk]; cbn in Lra, Lrk; try lia.
      destruct i; [lia|]. cbn [derive_loop].
      rewrite IHk with (A := A ++ [address_of p (S i)]) (K := K ++ [derive p (S i)]) (ra := ra) (rk := rk); cbn [w_addresses w_keypairs w_map]; try lia.
      + cbn [seq map entries rev]. rewrite <- !app_assoc. cbn. f_equal. 
      + rewrite Ha, <- La, set_nth_app, <- app_assoc. reflexivity.
      + rewrite app_length. cbn. lia.
      + rewrite Hk, <- Lk, set_nth_app, <- app_assoc. reflexivity.
      + rewrite app_length. cbn. lia.
  Qed.
  Lemma first_case (w : wallet) p : (forall a, nth_error (w_addresses w) 0 = Some a -> address_of p 0 = a) \/ (exists a, nth_error (w_addresses w) 0 = Some a /\ address_of p 0 <> a).
  Proof.
    destruct (nth_error (w_addresses w) 0) as [a|] eqn:E; [|left; congruence].
    destruct (addr_eqb_spec (address_of p 0) a); [left; intros b Hb; congruence|right; eauto].
  Qed.
  Lemma loop_first p w : (0 < n)%nat -> (forall a, nth_error (w_addresses w) 0 = Some a -> address_of p 0 = a) ->
    loop p (nth_error (w_addresses w) 0) n 0 w
    = Ret (mk_wallet (map (address_of p) (seq 0 n)) (map (derive p) (seq 0 n)) (rev (entries p (seq 0 n)) ++ w_map w)).
  Proof.
    intros Hn H.
    assert (E : exists k, n = S k) by (destruct n; [lia|eauto]). destruct E as (k & E).
    set (w1 := mk_wallet (resize [] n (w_addresses w)) (resize ([], []) n (w_keypairs w)) (w_map w)).
    assert (L1 : List.length (w_addresses w1) = S k) by (cbn; rewrite resize_length; auto).
    assert (L2 : List.length (w_keypairs w1) = S k) by (cbn; rewrite resize_length; auto).
    assert (G : loop p (nth_error (w_addresses w) 0) n 0 w =
      loop p (nth_error (w_addresses w) 0) k 1 (mk_wallet (set_nth 0 (address_of p 0) (w_addresses w1)) (set_nth 0 (derive p 0) (w_keypairs w1)) ((address_of p 0, 0%nat) :: w_map w1))).
    { unfold w1. transitivity (loop p (nth_error (w_addresses w) 0) (S k) 0 w); [now rewrite E|]. cbn [derive_loop].
      destruct (nth_error (w_addresses w) 0) as [a|] eqn:Ea; [|reflexivity].
      specialize (H a eq_refl). unfold SgnSpec.address_of in *. rewrite H. destruct (addr_eqb_spec a a); [|congruence]. reflexivity. }
    rewrite G. destruct (w_addresses w1) as [|x ra] eqn:E1; [cbn in L1; lia|]. destruct (w_keypairs w1) as [|y rk] eqn:E2; [cbn in L2; lia|].
    cbn in L1, L2.
    rewrite loop_later with (A := [address_of p 0]) (K := [derive p 0]) (ra := ra) (rk := rk); cbn [List.length]; try lia; try reflexivity.
    rewrite E. cbn [seq map entries rev app w_map]. rewrite <- app_assoc. reflexivity.
  Qed.
  Lemma unlock_ok w p : (0 < n)%nat -> right (w_addresses w) p ->
    unlock w p = Ret (mk_wallet (map (address_of p) (seq 0 n)) (map (derive p) (seq 0 n)) (rev (entries p (seq 0 n)) ++ w_map w)).
  Proof.
    intros Hn (H1 & H2). unfold SgnModel.unlock.
    destruct (c_with_passphrase cfg) eqn:E; cbn [andb].
    - rewrite (proj2 (addr_eqb_eq _ _) (H1 eq_refl)). cbn. now apply loop_first.
    - now apply loop_first.
  Qed.
  Lemma unlock_wrong w p : (0 < n)%nat -> ~ right (w_addresses w) p -> unlock w p = Throw.
  Proof.
    intros Hn H. unfold SgnModel.unlock.
    destruct (c_with_passphrase cfg && negb (addr_eqb (finger_print p) (c_finger_print cfg))) eqn:E; [reflexivity|].
    destruct (first_case w p) as [F|(a & Ea & Na)].
    - exfalso. apply H. split; [|exact F]. intros W. rewrite W in E. cbn in E. apply negb_false_iff in E. now apply addr_eqb_eq.
    - assert (E' : exists k, n = S k) by (destruct n; [lia|eauto]). destruct E' as (k & E'). rewrite Ea, E'. cbn [derive_loop].
      destruct (addr_eqb_spec (get_addr (snd (derive p 0))) a); [contradiction|]. reflexivity.
  Qed.
  Lemma right_dec w p : (0 < n)%nat -> right (w_addresses w) p \/ ~ right (w_addresses w) p.
  Proof.
    intros Hn. destruct (first_case w p) as [F|(a & Ea & Na)]; [|right; intros (_ & H); exact (Na (H a Ea))].
    destruct (c_with_passphrase cfg) eqn:E.
    - destruct (addr_eqb_spec (finger_print p) (c_finger_print cfg)) as [G|G]; [left; split; auto|right; intros (H & _); auto].
    - left. split; [congruence|exact F].
  Qed.

  Lemma lookup_entries p l m a i : lookup (rev (entries p l) ++ m) a = Some i -> (In i l /\ address_of p i = a) \/ ((forall j, In j l -> address_of p j <> a) /\ lookup m a = Some i).
  Proof.
    induction l as [|j l IH] using rev_ind; intros H.
    - right. split; [intros ? []|exact H].
    - unfold entries in H. rewrite map_app, rev_app_distr in H. cbn [map rev app] in H. rewrite lookup_cons in H.
      destruct (addr_eqb_spec (address_of p j) a) as [E|E].
      + injection H as <-. left. split; [apply in_or_app; right; now left|exact E].
      + destruct (IH H) as [(I1 & I2)|(I1 & I2)]; [left; split; [apply in_or_app; now left|exact I2]|].
        right. split; [|exact I2]. intros k Hk. apply in_app_or in Hk. destruct Hk as [Hk|[<-|[]]]; auto.
  Qed.
  Lemma lookup_entries_some p l m a : (exists i, In i l /\ address_of p i = a) -> lookup (rev (entries p l) ++ m) a <> None.
  Proof.
    induction l as [|j l IH] using rev_ind; intros (i & Hi & Ha); [destruct Hi|].
    unfold entries. rewrite map_app, rev_app_distr. cbn [map rev app]. rewrite lookup_cons.
    destruct (addr_eqb_spec (address_of p j) a) as [E|E]; [congruence|].
    apply IH. apply in_app_or in Hi. destruct Hi as [Hi|[<-|[]]]; [eauto|contradiction].
  Qed.
  Lemma opened_after p m : (forall a i, lookup m a = Some i -> (i < n)%nat /\ address_of p i = a) ->
    opened p (mk_wallet (map (address_of p) (seq 0 n)) (map (derive p) (seq 0 n)) (rev (entries p (seq 0 n)) ++ m)).
  Proof.
    intros Hm. unfold SgnSpec.opened. cbn. split; [reflexivity|]. split; [reflexivity|]. split.
    - intros a i H. apply lookup_entries in H. destruct H as [(H1 & H2)|(_ & H)]; [apply in_seq in H1; split; [lia|exact H2]|exact (Hm _ _ H)].
    - intros a (i & Hi & Ha). apply lookup_entries_some. exists i. split; [apply in_seq; lia|exact Ha].
  Qed.
  Lemma unlock_closed w p w' : (0 < n)%nat -> closed w -> unlock w p = Ret w' -> right (w_addresses w) p /\ opened p w'.
  Proof.
    intros Hn (C1 & C2) H. destruct (right_dec w p Hn) as [R|R]; [|rewrite unlock_wrong in H by assumption; discriminate].
    split; [exact R|]. rewrite unlock_ok in H by assumption. injection H as <-. rewrite C2. apply opened_after. intros a i E. discriminate.
  Qed.
  Lemma opened_right p w : (0 < n)%nat -> opened p w -> nth_error (w_addresses w) 0 = Some (address_of p 0).
  Proof. intros Hn (H & _). rewrite H. destruct n; [lia|]. reflexivity. Qed.
  Lemma opened_same p q w : (forall i, derive p i = derive q i) -> opened p w -> opened q w.
  Proof.
    intros E (H1 & H2 & H3 & H4).
    assert (A : forall i, address_of p i = address_of q i) by (intros i; unfold SgnSpec.address_of; now rewrite E).
    unfold SgnSpec.opened. rewrite H1, H2. split; [apply map_ext; auto|]. split; [apply map_ext; auto|]. split.
    - intros a i Hi. destruct (H3 a i Hi) as (? & ?). split; [assumption|]. now rewrite <- A.
    - intros a (i & Hi & Ha). apply H4. exists i. split; [exact Hi|]. now rewrite A.
  Qed.
  Lemma unlock_opened w p q w' : (0 < n)%nat -> no_twins -> opened q w -> unlock w p = Ret w' -> right (w_addresses w) p /\ opened p w'.
  Proof.
    intros Hn NT O H. destruct (right_dec w p Hn) as [R|R]; [|rewrite unlock_wrong in H by assumption; discriminate].
    split; [exact R|]. rewrite unlock_ok in H by assumption. injection H as <-.
    assert (E : forall i, derive q i = derive p i) by (apply NT; symmetry; apply R; now apply opened_right).
    apply (opened_same q p w E) in O. apply opened_after. apply O.
  Qed.
  Lemma opened_unlocked p w : (0 < n)%nat -> opened p w -> is_locked w = false.
  Proof.
    intros Hn (H1 & H2 & _). unfold is_locked. rewrite H1, H2, !map_length, Nat.ltb_irrefl. destruct n; [lia|]. reflexivity.
  Qed.
  Lemma closed_locked w : closed w -> is_locked w = true.
  Proof. intros (H1 & H2). unfold is_locked. rewrite H1. destruct (w_addresses w); reflexivity. Qed.
  Lemma lock_closed w : closed (lock w).
  Proof. split; reflexivity. Qed.
  Lemma closed_eta w : closed w -> lock w = w.
  Proof. destruct w. intros (H1 & H2). cbn in *. now subst. Qed.
End LOCK.

Section HISTORY.
  Variables (get_addr : bytes -> addr) (sign : bytes -> bytes -> bytes) (derive : bytes -> nat -> bytes * bytes) (finger_print : bytes -> bytes)
    (calc_hash : core -> bytes) (full_hash : txn -> bytes) (base_cost : core_parts -> N) (sol_cost : solution -> N) (rand : N) (network : bytes) (version : N) (cfg : config)
    (choose : txn -> options -> option (list N * list (addr * addr * N * option bytes) * option addr)) (contracts : addr -> option contract)
    (accept validates : txn -> bool) (lock_timeout : N).
  Notation right := (right get_addr derive finger_print cfg).
  Notation opened := (opened get_addr derive cfg).
  Notation unlock := (unlock get_addr derive finger_print cfg).
  Notation no_twins := (no_twins get_addr derive).
  Notation with_keys := (with_keys get_addr derive finger_print cfg).
  Notation sign_off := (sign_off get_addr sign derive finger_print calc_hash full_hash base_cost sol_cost rand network cfg).
  Notation complete := (complete get_addr sign derive finger_print calc_hash full_hash base_cost sol_cost rand network version cfg choose).
  Notation dispatch := (dispatch get_addr sign derive finger_print calc_hash full_hash base_cost sol_cost rand network version cfg choose accept validates).
  Notation perform := (perform get_addr sign derive finger_print calc_hash full_hash base_cost sol_cost rand network version cfg choose contracts accept validates).
  Notation act := (act get_addr sign derive finger_print calc_hash full_hash base_cost sol_cost rand network version cfg choose contracts accept validates lock_timeout).
  Notation acts := (acts get_addr sign derive finger_print calc_hash full_hash base_cost sol_cost rand network version cfg choose contracts accept validates lock_timeout).
  Notation build := (build contracts).
  Hypothesis num : (0 < c_num_addresses cfg)%nat.

  Lemma with_keys_closed {A} w opts (body : wallet -> wallet * res A) : closed w -> closed (fst (with_keys w opts body)).
  Proof.
    intros C. unfold SgnModel.with_keys. rewrite closed_locked by assumption. destruct (o_passphrase opts); [|exact C].
    destruct (unlock w b); [exact C|]. destruct (body a). apply lock_closed.
  Qed.
  Lemma with_keys_opened {A} p w opts (body : wallet -> wallet * res A) : opened p w -> with_keys w opts body = body w.
  Proof. intros C. unfold SgnModel.with_keys. now rewrite (opened_unlocked get_addr derive cfg p w num C). Qed.
  Lemma with_keys_wrong {A} w opts (body : wallet -> wallet * res A) : closed w -> (forall p, o_passphrase opts = Some p -> ~ right (w_addresses w) p) ->
    with_keys w opts body = (w, Throw).
  Proof.
    intros C H. unfold SgnModel.with_keys. rewrite closed_locked by assumption. destruct (o_passphrase opts); [|reflexivity].
    rewrite unlock_wrong; auto.
  Qed.
  Lemma with_keys_right {A} w opts p (body : wallet -> wallet * res A) : closed w -> o_passphrase opts = Some p -> right (w_addresses w) p ->
    exists w1, opened p w1 /\ with_keys w opts body = (lock (fst (body w1)), snd (body w1)).
  Proof.
    intros C Hp R. unfold SgnModel.with_keys. rewrite closed_locked, Hp by assumption. rewrite (unlock_ok _ _ _ _ w p num R).
    exists (mk_wallet (map (address_of get_addr derive p) (seq 0 (c_num_addresses cfg))) (map (derive p) (seq 0 (c_num_addresses cfg)))
              (rev (entries get_addr derive p (seq 0 (c_num_addresses cfg))) ++ w_map w)).
    split; [apply opened_after; rewrite (proj2 C); intros ? ? E; discriminate|]. destruct (body _). reflexivity.
  Qed.
  Lemma sign_off_opened p w t opts : opened p w -> fst (sign_off w t opts) = w.
  Proof. intros C. unfold SgnModel.sign_off. now rewrite (with_keys_opened p) by exact C. Qed.
  Lemma complete_opened p w t opts : opened p w -> fst (complete w t opts) = w.
  Proof.
    intros C. unfold SgnModel.complete. rewrite (with_keys_opened p) by exact C.
    destruct (prepare _ _ _ _ _ _); [reflexivity|]. now apply (sign_off_opened p).
  Qed.
  Lemma send_off_wallet v t : v_wallet (fst (send_off accept v t)) = v_wallet v.
  Proof. unfold send_off. destruct (accept t); reflexivity. Qed.
  Lemma dispatch_wallet v t opts : v_wallet (fst (dispatch v t opts)) = fst (complete (v_wallet v) t opts).
  Proof.
    unfold SgnModel.dispatch. destruct (complete (v_wallet v) t opts) as (w, r). destruct r as [|t']; [reflexivity|].
    destruct (is_signed t'); [destruct (o_auto_send opts)|].
    - unfold send_off. destruct (accept t'); cbn; [destruct (o_mark_spent opts)|]; reflexivity.
    - destruct (validates t'); cbn; [destruct (o_mark_spent opts)|]; reflexivity.
    - cbn. destruct (o_mark_spent opts); reflexivity.
  Qed.
  Lemma build_passphrase v r opts t opts' : build v r opts = Some (t, opts') -> o_passphrase opts' = o_passphrase opts.
  Proof.
    destruct r; cbn [SgnModel.build]; intros H;
      repeat match type of H with context [match ?x with _ => _ end] => destruct x; try discriminate end; injection H as <- <-; reflexivity.
  Qed.
  Lemma perform_wallet v r opts : (exists t opts', build v r opts = Some (t, opts') /\ v_wallet (fst (perform v r opts)) = fst (complete (v_wallet v) t opts'))
    \/ (perform v r opts = (v, Throw)).
  Proof.
    unfold SgnModel.perform. destruct (build v r opts) as [(t, o)|] eqn:E; [left|right; reflexivity].
    exists t, o. split; [reflexivity|]. apply dispatch_wallet.
  Qed.

  Lemma expire_closed g now : closed (v_wallet (g_world g)) -> closed (v_wallet (g_world (expire g now))) /\ v_wallet (g_world (expire g now)) = v_wallet (g_world g).
  Proof.
    intros C. unfold expire. destruct (g_timer g) as [d|]; [|split; auto]. destruct (d <=? now); [|split; auto]. cbn. split; [apply lock_closed|now apply closed_eta].
  Qed.
  Lemma act_closed g now a g' x : closed (v_wallet (g_world g)) -> (forall p, carries a p -> ~ right (w_addresses (v_wallet (g_world g))) p) -> act g now a = (g', x) ->
    v_wallet (g_world g') = v_wallet (g_world g) /\ (signs a -> x = Failed).
  Proof.
    intros C H E. unfold SgnModel.act in E. destruct (expire_closed g now C) as (C' & Ew). rewrite <- Ew in *. clear Ew C.
    set (g1 := expire g now) in *. clearbody g1. clear g.
    destruct a; cbn [carries signs] in *.
    - rewrite (unlock_wrong _ _ _ _ _ _ num (H p eq_refl)) in E. injection E as <- <-. split; [reflexivity|intros []].
    - injection E as <- <-. cbn. split; [now apply closed_eta|intros []].
    - unfold sign_msg in E. rewrite closed_locked in E by exact C'. injection E as <- <-. auto.
    - unfold SgnModel.sign_off in E. rewrite with_keys_wrong in E by assumption. injection E as <- <-. auto.
    - unfold SgnModel.complete in E. rewrite with_keys_wrong in E by assumption. injection E as <- <-. auto.
    - destruct (send_off accept (g_world g1) t) as (v, r) eqn:Es. injection E as <- <-. cbn. split; [|intros []].
      rewrite <- (send_off_wallet (g_world g1) t), Es. reflexivity.
    - destruct (build (g_world g1) r opts) as [(t, o)|] eqn:Eb.
      + assert (Hc : complete (v_wallet (g_world g1)) t o = (v_wallet (g_world g1), Throw)).
        { unfold SgnModel.complete. apply with_keys_wrong; [exact C'|]. rewrite (build_passphrase _ _ _ _ _ Eb). exact H. }
        unfold SgnModel.perform in E. rewrite Eb in E. unfold SgnModel.dispatch in E. rewrite Hc in E. injection E as <- <-. cbn. auto.
      + unfold SgnModel.perform in E. rewrite Eb in E. injection E as <- <-. auto.
  Qed.
  Lemma acts_closed l : forall g g' xs, closed (v_wallet (g_world g)) -> (forall now a p, In (now, a) l -> carries a p -> ~ right (w_addresses (v_wallet (g_world g))) p) ->
    acts g l = (g', xs) ->
    v_wallet (g_world g') = v_wallet (g_world g) /\ Forall2 (fun e x => signs (snd e) -> x = Failed) l xs.
  Proof.
    induction l as [|(now, a) l IH]; intros g g' xs C H E; cbn in E.
    - injection E as <- <-. split; [reflexivity|constructor].
    - destruct (act g now a) as (g1, x) eqn:E1. destruct (acts g1 l) as (g2, xs') eqn:E2. injection E as <- <-.
      destruct (act_closed g now a g1 x C (fun p Hp => H now a p (or_introl eq_refl) Hp) E1) as (W & F).
      destruct (IH g1 g2 xs') as (W2 & F2); [now rewrite W|rewrite W; intros now' a' p Hin; apply (H now'); now right|exact E2|].
      split; [congruence|]. constructor; auto.
  Qed.

  (** every state there can be *)
  Definition wf (w : wallet) : Prop := closed w \/ exists p, opened p w.
  Lemma unlock_wf w p w' : no_twins -> wf w -> unlock w p = Ret w' -> right (w_addresses w) p /\ opened p w'.
  Proof.
    intros NT [C|(q & O)] E; [now apply (unlock_closed get_addr derive finger_print cfg w p w' num)|now apply (unlock_opened get_addr derive finger_print cfg w p q w' num)].
  Qed.
  Lemma keep_wf w w' (A : Type) opts (body : wallet -> wallet * res A) : wf w -> (forall p w, opened p w -> fst (body w) = w) -> w' = fst (with_keys w opts body) ->
    wf w' /\ is_locked w' = is_locked w /\ (closed w -> closed w') /\ (forall p, opened p w -> w' = w).
  Proof.
    intros W B ->. split; [|split; [|split]].
    - destruct W as [C|(p & O)]; [left; now apply with_keys_closed|right; exists p]. rewrite (with_keys_opened p) by exact O. now rewrite (B p).
    - destruct W as [C|(p & O)]; [rewrite !closed_locked; auto using with_keys_closed|]. rewrite (with_keys_opened p) by exact O. now rewrite (B p).
    - intros C. now apply with_keys_closed.
    - intros p O. rewrite (with_keys_opened p) by exact O. now apply (B p).
  Qed.
  Lemma complete_keep w t opts : wf w ->
    wf (fst (complete w t opts)) /\ is_locked (fst (complete w t opts)) = is_locked w /\ (closed w -> closed (fst (complete w t opts))) /\ (forall p, opened p w -> fst (complete w t opts) = w).
  Proof.
    intros W. apply (keep_wf w _ _ opts _ W) with (2 := eq_refl). intros p w1 O.
    destruct (prepare _ _ _ _ _ _); [reflexivity|]. now apply (sign_off_opened p).
  Qed.
  Lemma sign_off_keep w t opts : wf w ->
    wf (fst (sign_off w t opts)) /\ is_locked (fst (sign_off w t opts)) = is_locked w /\ (closed w -> closed (fst (sign_off w t opts))) /\ (forall p, opened p w -> fst (sign_off w t opts) = w).
  Proof. intros W. apply (keep_wf w _ _ opts _ W) with (2 := eq_refl). reflexivity. Qed.
  Definition keeps (w w' : wallet) : Prop := wf w' /\ is_locked w' = is_locked w /\ (closed w -> closed w') /\ (forall p, opened p w -> w' = w).
  Lemma keeps_refl w : wf w -> keeps w w.
  Proof. intros W. repeat split; auto; apply H. Qed.
  Definition other (a : action) : Prop := match a with AUnlock _ | ALock => False | _ => True end.
  Lemma act_other g now a g' x : wf (v_wallet (g_world (expire g now))) -> other a -> act g now a = (g', x) -> keeps (v_wallet (g_world (expire g now))) (v_wallet (g_world g')).
  Proof.
    intros W Ho E. unfold SgnModel.act in E. set (g1 := expire g now) in *. clearbody g1. destruct a; try destruct Ho.
    - injection E as <- <-. now apply keeps_refl.
    - destruct (sign_off (v_wallet (g_world g1)) t opts) as (w, r) eqn:Es. injection E as <- <-. cbn.
      pose proof (sign_off_keep _ t opts W) as K. rewrite Es in K. exact K.
    - destruct (complete (v_wallet (g_world g1)) t opts) as (w, r) eqn:Es. injection E as <- <-. cbn.
      pose proof (complete_keep _ t opts W) as K. rewrite Es in K. exact K.
    - pose proof (send_off_wallet (g_world g1) t) as K. destruct (send_off accept (g_world g1) t) as (v, r) eqn:Es. injection E as <- <-. cbn in K |- *.
      rewrite K. now apply keeps_refl.
    - pose proof (perform_wallet (g_world g1) r opts) as K. destruct (perform (g_world g1) r opts) as (v, y) eqn:Es. injection E as <- <-. cbn in K |- *.
      destruct K as [(t & o & _ & K)|K]; [rewrite K; now apply complete_keep|]. injection K as -> ->. now apply keeps_refl.
  Qed.
  Lemma expire_wf g now : wf (v_wallet (g_world g)) -> wf (v_wallet (g_world (expire g now))).
  Proof.
    intros W. unfold expire. destruct (g_timer g); [|exact W]. destruct (n <=? now); [|exact W]. left. apply lock_closed.
  Qed.
  Lemma act_wf g now a g' x : no_twins -> wf (v_wallet (g_world g)) -> act g now a = (g', x) -> wf (v_wallet (g_world g')).
  Proof.
    intros NT W E. pose proof (expire_wf g now W) as W1.
    destruct a; try (apply (act_other g now _ g' x W1) in E; [apply E|exact Coq.Init.Logic.I]).
    - unfold SgnModel.act in E. destruct (unlock _ p) eqn:Eu; injection E as <- <-; [exact W1|]. cbn.
      right. exists p. now apply (unlock_wf _ _ _ NT W1 Eu).
    - unfold SgnModel.act in E. injection E as <- <-. left. apply lock_closed.
  Qed.
  Lemma acts_wf l : forall g, no_twins -> wf (v_wallet (g_world g)) -> wf (v_wallet (g_world (fst (acts g l)))).
  Proof.
    induction l as [|(now, a) l IH]; intros g NT W; cbn; [exact W|].
    destruct (act g now a) as (g1, x) eqn:E1. specialize (IH g1 NT (act_wf _ _ _ _ _ NT W E1)). destruct (acts g1 l). exact IH.
  Qed.

  (** what starts the timer *)
  Definition starts (a : action) : Prop := match a with AUnlock _ | ASendOff _ => True | APerform _ o => o_auto_send o = true | _ => False end.
  Definition timed (past : list (N * action)) (g : guard) : Prop :=
    closed (v_wallet (g_world g)) \/ exists d t a, g_timer g = Some d /\ In (t, a) past /\ starts a /\ d = t + lock_timeout.
  Lemma timed_app past past' g : timed past g -> timed (past ++ past') g.
  Proof. intros [C|(d & t & a & H1 & H2 & H3)]; [now left|right; exists d, t, a]. split; [exact H1|]. split; [apply in_or_app; now left|exact H3]. Qed.
  Lemma timed_act past g now a g' x : c_with_passphrase cfg = true -> 0 < lock_timeout -> no_twins -> wf (v_wallet (g_world g)) -> timed past g -> act g now a = (g', x) ->
    timed (past ++ [(now, a)]) g'.
  Proof.
    intros WP LT NT W T E. pose proof (expire_wf g now W) as W1.
    assert (T1 : timed past (expire g now)).
    { unfold expire. destruct (g_timer g) as [d|] eqn:Ed; [|exact T]. destruct (d <=? now); [left; apply lock_closed|exact T]. }
    assert (Hin : In (now, a) (past ++ [(now, a)])) by (apply in_or_app; right; now left).
    assert (K : other a -> keeps (v_wallet (g_world (expire g now))) (v_wallet (g_world g'))) by (intros O; exact (act_other g now a g' x W1 O E)).
    unfold SgnModel.act in E. set (g1 := expire g now) in *. clearbody g1.
    assert (same : other a -> g_timer g' = g_timer g1 -> timed (past ++ [(now, a)]) g').
    { intros O Et. destruct T1 as [C|(d & t & a' & H1 & H2 & H3)]; [left; now apply (K O)|]. right. exists d, t, a'. rewrite Et.
      split; [exact H1|]. split; [apply in_or_app; now left|exact H3]. }
    assert (again : other a -> starts a -> g_timer g' = restart lock_timeout g1 now -> timed (past ++ [(now, a)]) g').
    { intros O St Et. destruct T1 as [C|(d & t & a' & H1 & H2 & H3)]; [left; now apply (K O)|]. right. exists (now + lock_timeout), now, a. rewrite Et.
      unfold restart. rewrite H1. auto. }
    destruct a; cbn [other starts] in *.
    - destruct (unlock _ p) eqn:Eu; injection E as <- <-; [now apply timed_app|]. cbn. right. exists (now + lock_timeout), now, (AUnlock p).
      rewrite WP. cbn [andb]. destruct (N.ltb_spec 0 lock_timeout); [|lia]. cbn. auto.
    - injection E as <- <-. left. apply lock_closed.
    - injection E as <- <-. apply same; auto.
    - destruct (sign_off (v_wallet (g_world g1)) t opts) as (w, r) eqn:Es. injection E as <- <-. apply same; auto.
    - destruct (complete (v_wallet (g_world g1)) t opts) as (w, r) eqn:Es. injection E as <- <-. apply same; auto.
    - destruct (send_off accept (g_world g1) t) as (v, r) eqn:Es. injection E as <- <-. apply again; auto.
    - destruct (perform (g_world g1) r opts) as (v, y) eqn:Es. injection E as <- <-. cbn [g_timer] in *.
      match goal with |- context [if ?b then _ else _] => destruct b eqn:Eb end; [apply again|apply same]; auto.
      destruct (build (g_world g1) r opts) as [(t, o)|] eqn:Ebd; [|discriminate]. apply andb_true_iff in Eb. rewrite <- (proj1 Eb). symmetry.
      clear - Ebd. destruct r; cbn [SgnModel.build] in Ebd;
        repeat match type of Ebd with context [match ?x with _ => _ end] => destruct x; try discriminate end; injection Ebd as <- <-; reflexivity.
  Qed.
  Lemma timed_acts l : forall past g, c_with_passphrase cfg = true -> 0 < lock_timeout -> no_twins -> wf (v_wallet (g_world g)) -> timed past g ->
    timed (past ++ l) (fst (acts g l)).
  Proof.
    induction l as [|(now, a) l IH]; intros past g WP LT NT W T; cbn; [now rewrite app_nil_r|].
    destruct (act g now a) as (g1, x) eqn:E1. pose proof (timed_act past g now a g1 x WP LT NT W T E1) as T1.
    specialize (IH (past ++ [(now, a)]) g1 WP LT NT (act_wf _ _ _ _ _ NT W E1) T1). rewrite <- app_assoc in IH. cbn in IH.
    destruct (acts g1 l). exact IH.
  Qed.
End HISTORY.

Section SIGNING.
  Variables (get_addr : bytes -> addr) (sign : bytes -> bytes -> bytes) (verify : bytes -> bytes -> bytes -> bool) (derive : bytes -> nat -> bytes * bytes)
    (finger_print : bytes -> bytes) (calc_hash : core -> bytes) (full_hash : txn -> bytes) (base_cost : core_parts -> N) (sol_cost : solution -> N) (rand : N)
    (network : bytes) (version : N) (cfg : config)
    (choose : txn -> options -> option (list N * list (addr * addr * N * option bytes) * option addr)) (contracts : addr -> option contract).
  Notation opened := (opened get_addr derive cfg).
  Notation has := (has get_addr derive cfg).
  Notation right := (right get_addr derive finger_print cfg).
  Notation sign_body := (sign_body sign calc_hash full_hash base_cost sol_cost rand network).
  Notation sign_off := (sign_off get_addr sign derive finger_print calc_hash full_hash base_cost sol_cost rand network cfg).
  Notation complete := (complete get_addr sign derive finger_print calc_hash full_hash base_cost sol_cost rand network version cfg choose).
  Notation prepare := (prepare base_cost sol_cost version choose).
  Hypothesis num : (0 < c_num_addresses cfg)%nat.
  (** a signature made with a key verifies with it *)
  Hypothesis sound : forall p i m, verify (snd (derive p i)) (sign (fst (derive p i)) m) m = true.
  Variables (p : bytes) (w : wallet).
  Hypothesis O : opened p w.

  Lemma keypair_has a : has p a -> exists i, find_keypair w a = Some (derive p i) /\ get_addr (snd (derive p i)) = a.
  Proof.
    intros H. destruct O as (H1 & H2 & H3 & H4). specialize (H4 a H). unfold find_keypair. destruct (lookup (w_map w) a) as [i|] eqn:E; [|congruence].
    destruct (H3 a i E) as (Hi & Ha). exists i. split; [|exact Ha]. f_equal. rewrite H2.
    rewrite nth_indep with (d' := derive p 0) by (rewrite map_length, seq_length; exact Hi). rewrite map_nth, seq_nth by exact Hi. reflexivity.
  Qed.
  Lemma keypair_not a : ~ has p a -> find_keypair w a = None.
  Proof.
    intros H. destruct O as (H1 & H2 & H3 & H4). unfold find_keypair. destruct (lookup (w_map w) a) as [i|] eqn:E; [|reflexivity].
    exfalso. apply H. exists i. exact (H3 a i E).
  Qed.
  Lemma has_dec a : has p a \/ ~ has p a.
  Proof.
    destruct O as (H1 & H2 & H3 & H4). destruct (lookup (w_map w) a) as [i|] eqn:E; [left; exists i; exact (H3 a i E)|right; intros H; exact (H4 a H E)].
  Qed.

  Definition good (id : bytes) (a : addr) (s : solution) : Prop := exists pk sg, s = PubKey pk sg /\ get_addr pk = a /\ verify pk sg id = true.
  (** [os]: whose signatures the solutions are *)
  Definition inv (id : bytes) (os : list addr) (m : list (addr * N)) (sols : list solution) : Prop :=
    NoDup os /\ Forall (has p) os /\ Forall2 (good id) os sols /\ (forall a i, lookup m a = Some i <-> nth_error os (N.to_nat i) = Some a).
  (** the index [k] stands for [a] *)
  Definition index_for (os : list addr) (a : addr) (k : N) : Prop :=
    (has p a -> exists i, nth_error os i = Some a /\ k = N.of_nat i mod 65536) /\ (~ has p a -> k = 65535).
  Lemma index_app os ext a k : index_for os a k -> index_for (os ++ ext) a k.
  Proof.
    intros (H1 & H2). split; [|exact H2]. intros H. destruct (H1 H) as (i & Hi & Hk). exists i. split; [|exact Hk].
    rewrite nth_error_app1; [exact Hi|]. apply nth_error_Some. congruence.
  Qed.
  Lemma inv_nil id : inv id [] [] [].
  Proof. split; [constructor|]. split; [constructor|]. split; [constructor|]. intros a i. cbn. destruct (N.to_nat i); cbn; split; discriminate. Qed.
  Lemma ex_spec id a m sols os : inv id os m sols ->
    exists m' sols' k ext, sign_msg_ex sign w id a m sols = Ret (m', sols', k) /\ inv id (os ++ ext) m' sols' /\ index_for (os ++ ext) a k /\ (ext = [] \/ ext = [a] /\ k = N.of_nat (List.length os) mod 65536).
  Proof.
    intros (I1 & I2 & I3 & I4). unfold sign_msg_ex. destruct (lookup m a) as [i|] eqn:E.
    - exists m, sols, (i mod 65536), []. rewrite app_nil_r. split; [reflexivity|]. split; [split; auto|]. split; [|now left].
      apply I4 in E. split.
      + intros _. exists (N.to_nat i). split; [exact E|]. now rewrite N2Nat.id.
      + intros H. exfalso. apply H. rewrite Forall_forall in I2. apply I2. eapply nth_error_In. exact E.
    - unfold sign_msg. rewrite (opened_unlocked get_addr derive cfg p w num O). destruct (has_dec a) as [H|H].
      + destruct (keypair_has a H) as (j & Hj & Ha). rewrite Hj. destruct (derive p j) as (sk, pk) eqn:Ed. cbn [rbind].
        assert (Hna : ~ In a os).
        { intros Hin. apply In_nth_error in Hin. destruct Hin as (n & Hn). assert (lookup m a = Some (N.of_nat n)) by (apply I4; now rewrite Nat2N.id). congruence. }
        assert (L : List.length sols = List.length os) by (symmetry; exact (Forall2_len _ _ _ I3)).
        exists ((a, N.of_nat (List.length sols)) :: m), (sols ++ [PubKey pk (sign sk id)]), (N.of_nat (List.length sols) mod 65536), [a].
        split; [reflexivity|]. split; [|split; [|right; now rewrite L]].
        * split; [|split; [|split]].
          -- apply NoDup_rev in I1. rewrite <- (rev_involutive (os ++ [a])). apply NoDup_rev. rewrite rev_app_distr. cbn. constructor; [|exact I1]. now rewrite <- in_rev.
          -- apply Forall_app. auto.
          -- apply Forall2_app; [exact I3|]. constructor; [|constructor]. exists pk, (sign sk id). split; [reflexivity|]. split; [exact Ha|].
             pose proof (sound p j id) as S1. rewrite Ed in S1. exact S1.
          -- intros b i. rewrite lookup_cons. destruct (addr_eqb_spec a b) as [->|Nab].
             ++ split.
                ** intros [= <-]. rewrite Nat2N.id, L, nth_error_app2, Nat.sub_diag by lia. reflexivity.
                ** intros Hn. destruct (Nat.lt_ge_cases (N.to_nat i) (List.length os)) as [Hlt|Hge].
                   --- rewrite nth_error_app1 in Hn by exact Hlt. exfalso. apply Hna. eapply nth_error_In. exact Hn.
                   --- rewrite nth_error_app2 in Hn by exact Hge. destruct (N.to_nat i - List.length os)%nat as [|z] eqn:Ez; [|destruct z; discriminate].
                       f_equal. rewrite L. lia.
             ++ rewrite I4. split.
                ** intros Hn. rewrite nth_error_app1; [exact Hn|]. apply nth_error_Some. congruence.
                ** intros Hn. destruct (Nat.lt_ge_cases (N.to_nat i) (List.length os)) as [Hlt|Hge]; [now rewrite nth_error_app1 in Hn by exact Hlt|].
                   rewrite nth_error_app2 in Hn by exact Hge. destruct (N.to_nat i - List.length os)%nat as [|z]; [cbn in Hn; congruence|destruct z; discriminate].
        * split; [|contradiction]. intros _. exists (List.length os). split; [|now rewrite L]. rewrite nth_error_app2, Nat.sub_diag by lia. reflexivity.
      + rewrite keypair_not by exact H. cbn. exists m, sols, 65535, []. rewrite app_nil_r. split; [reflexivity|]. split; [split; auto|]. split; [|now left].
        split; [contradiction|reflexivity].
  Qed.

  Definition owner_of (owners : list (addr * addr)) (a : addr) : addr := match lookup owners a with Some o => o | None => a end.
  Definition in_rel (owners : list (addr * addr)) (os : list addr) (i i' : input) : Prop :=
    input_core i' = input_core i /\ N.testbit (in_flags i') 0 = (match lookup owners (in_address i) with Some _ => true | None => false end)
    /\ index_for os (owner_of owners (in_address i)) (in_solution i').
  Definition op_rel (os : list addr) (o o' : op) : Prop := op_core o' = op_core o /\ (forall u, op_user o = Some u -> index_for os u (op_solution o')).
  Lemma Forall2_imp {A B} (P Q : A -> B -> Prop) l l' : (forall a b, P a b -> Q a b) -> Forall2 P l l' -> Forall2 Q l l'.
  Proof. intros H F. induction F; constructor; auto. Qed.
  Lemma inputs_spec id owners ins : forall m sols os, (forall i, In i ins -> in_solution i = NO_SOLUTION /\ N.testbit (in_flags i) 0 = false) -> inv id os m sols ->
    exists m' sols' ins' ext, sign_inputs sign w id owners m sols ins = Ret (m', sols', ins') /\ inv id (os ++ ext) m' sols' /\ Forall2 (in_rel owners (os ++ ext)) ins ins'
    /\ (forall j, (List.length os <= j < List.length (os ++ ext))%nat -> exists i', In i' ins' /\ in_solution i' = N.of_nat j mod 65536).
  Proof.
    induction ins as [|i ins IH]; intros m sols os F I1; cbn [sign_inputs].
    - exists m, sols, [], []. rewrite app_nil_r. split; [reflexivity|]. split; [exact I1|]. split; [constructor|]. intros; lia.
    - destruct (F i (or_introl eq_refl)) as (Fs & Ff). rewrite Fs, N.eqb_refl. cbn [negb].
      assert (E : (match lookup owners (in_address i) with Some o => (N.lor (in_flags i) IS_EXEC, o) | None => (in_flags i, in_address i) end)
        = (match lookup owners (in_address i) with Some _ => N.lor (in_flags i) IS_EXEC | None => in_flags i end, owner_of owners (in_address i))).
      { unfold owner_of. destruct (lookup owners (in_address i)); reflexivity. }
      rewrite E. clear E.
      destruct (ex_spec id (owner_of owners (in_address i)) m sols os I1) as (m1 & sols1 & k & ext1 & -> & I2 & X1 & X2). cbn [rbind].
      destruct (IH m1 sols1 (os ++ ext1)) as (m2 & sols2 & ins2 & ext2 & -> & I3 & R & U); [intros j Hj; apply F; now right|exact I2|]. cbn [rbind].
      eexists m2, sols2, _, (ext1 ++ ext2). split; [reflexivity|]. rewrite app_assoc. split; [exact I3|]. split.
      + constructor; [|exact R]. split; [reflexivity|]. split; [|now apply index_app]. cbn [in_flags].
        destruct (lookup owners (in_address i)); [|exact Ff]. rewrite N.lor_spec, Ff. reflexivity.
      + intros j Hj. destruct (Nat.lt_ge_cases j (List.length (os ++ ext1))) as [L|L].
        * destruct X2 as [->|(-> & ->)]; [rewrite app_nil_r in L; lia|]. rewrite app_length in L. cbn in L. eexists. split; [now left|]. cbn. f_equal. f_equal. lia.
        * destruct (U j) as (i' & Hi' & Hs); [lia|]. exists i'. split; [now right|exact Hs].
  Qed.
  Lemma ops_spec id ops : forall m sols os, (forall o, In o ops -> op_solution o = NO_SOLUTION) -> inv id os m sols ->
    exists m' sols' ops' ext, sign_ops sign w id m sols ops = Ret (sols', ops') /\ inv id (os ++ ext) m' sols' /\ Forall2 (op_rel (os ++ ext)) ops ops'
    /\ (forall j, (List.length os <= j < List.length (os ++ ext))%nat -> exists o', In o' ops' /\ op_user o' <> None /\ op_solution o' = N.of_nat j mod 65536).
  Proof.
    induction ops as [|o ops IH]; intros m sols os F I1; cbn [sign_ops].
    - exists m, sols, [], []. rewrite app_nil_r. split; [reflexivity|]. split; [exact I1|]. split; [constructor|]. intros; lia.
    - rewrite (F o (or_introl eq_refl)), N.eqb_refl. cbn [negb]. destruct (op_user o) as [u|] eqn:Eu.
      + destruct (ex_spec id u m sols os I1) as (m1 & sols1 & k & ext1 & -> & I2 & X1 & X2). cbn [rbind].
        destruct (IH m1 sols1 (os ++ ext1)) as (m2 & sols2 & ops2 & ext2 & -> & I3 & R & U); [intros j Hj; apply F; now right|exact I2|]. cbn [rbind].
        eexists m2, sols2, _, (ext1 ++ ext2). split; [reflexivity|]. rewrite app_assoc. split; [exact I3|]. split.
        * constructor; [|exact R]. split; [unfold op_core; cbn; now rewrite Eu|]. intros u' Hu'. cbn [op_solution]. replace u' with u by congruence. now apply index_app.
        * intros j Hj. destruct (Nat.lt_ge_cases j (List.length (os ++ ext1))) as [L|L].
          -- destruct X2 as [->|(-> & ->)]; [rewrite app_nil_r in L; lia|]. rewrite app_length in L. cbn in L. eexists. split; [now left|]. cbn. split; [congruence|].
             f_equal. f_equal. lia.
          -- destruct (U j) as (i' & Hi' & Hs); [lia|]. exists i'. split; [now right|exact Hs].
      + destruct (IH m sols os) as (m2 & sols2 & ops2 & ext2 & -> & I3 & R & U); [intros j Hj; apply F; now right|exact I1|]. cbn [rbind].
        eexists m2, sols2, _, ext2. split; [reflexivity|]. split; [exact I3|]. split.
        * constructor; [|exact R]. split; [reflexivity|]. intros u Hu. congruence.
        * intros j Hj. destruct (U j Hj) as (o' & Ho' & Hs). exists o'. split; [now right|exact Hs].
  Qed.

  Lemma calc_cost_same t t' : parts_of t = parts_of t' -> t_solutions t = t_solutions t' -> calc_cost base_cost sol_cost t = calc_cost base_cost sol_cost t'.
  Proof. intros H1 H2. unfold SgnModel.calc_cost. now rewrite H1, H2. Qed.
  (** all about a transaction that was signed *)
  Definition signed_by (opts : options) (t t' : txn) (os : list addr) : Prop :=
    NoDup os /\ Forall (has p) os /\ Forall2 (good (t_id t')) os (t_solutions t') /\ Forall2 (in_rel (o_owner_map opts) os) (t_inputs t) (t_inputs t')
    /\ Forall2 (op_rel os) (t_execute t) (t_execute t')
    /\ (forall a, t_sender t = Some a -> has p a -> nth_error os 0 = Some a)
    /\ (forall j, (j < List.length os)%nat -> (j = 0%nat /\ t_sender t' <> None) \/ (exists i, In i (t_inputs t') /\ in_solution i = N.of_nat j mod 65536)
          \/ (exists o, In o (t_execute t') /\ op_user o <> None /\ op_solution o = N.of_nat j mod 65536)).
  Lemma map_core_inputs owners os l l' : Forall2 (in_rel owners os) l l' -> map input_core l' = map input_core l.
  Proof. intros F. induction F as [|x y l l' (H & _) _ IH]; cbn; congruence. Qed.
  Lemma map_core_ops os l l' : Forall2 (op_rel os) l l' -> map op_core l' = map op_core l.
  Proof. intros F. induction F as [|x y l l' (H & _) _ IH]; cbn; congruence. Qed.
  Lemma body_spec t opts t' : fresh t -> sign_body w t opts = Ret t' ->
    exists os, signed_by opts t t' os /\ t_id t' = calc_hash (core_of t') /\ t_sender t' = t_sender t /\ t_outputs t' = t_outputs t /\ t_deploy t' = t_deploy t
      /\ t_version t' = t_version t /\ t_expires t' = t_expires t /\ t_fee_ratio t' = t_fee_ratio t /\ t_max_fee t' = t_max_fee t /\ t_note t' = t_note t /\ t_network t' = network
      /\ calc_cost base_cost sol_cost t' <> Throw /\ (forall c, calc_cost base_cost sol_cost t' = Ret c -> t_static_cost t' = c mod 2^32).
  Proof.
    intros (F1 & F2 & F3) E. unfold SgnModel.sign_body in E.
    set (tf := finalize calc_hash rand network t opts) in *.
    assert (Es : t_sender tf = t_sender t /\ t_solutions tf = t_solutions t /\ t_inputs tf = t_inputs t /\ t_execute tf = t_execute t) by (repeat split).
    destruct Es as (Es & Eo & Ei & Ee). rewrite Es, Eo, Ei, Ee, F1 in E.
    set (id := t_id tf) in *.
    assert (S0 : exists m0 sols0 os0, (match t_sender t with
       | Some a => rbind (sign_msg_ex sign w id a [] []) (fun '(m, sols, _) => Ret (m, sols))
       | None => Ret ([], []) end) = Ret (m0, sols0) /\ inv id os0 m0 sols0 /\ (forall a, t_sender t = Some a -> has p a -> nth_error os0 0 = Some a)
       /\ (forall j, (j < List.length os0)%nat -> j = 0%nat /\ t_sender t <> None)).
    { destruct (t_sender t) as [a|].
      - destruct (ex_spec id a [] [] [] (inv_nil id)) as (m0 & sols0 & k & ext & -> & I1 & X1 & X2). cbn [rbind]. exists m0, sols0, ext.
        split; [reflexivity|]. split; [exact I1|]. split.
        + intros a' [= <-] H. destruct (proj1 X1 H) as (i & Hi & _). cbn [app] in Hi. destruct X2 as [->|(-> & _)]; [destruct i; discriminate|reflexivity].
        + intros j Hj. destruct X2 as [->|(-> & _)]; cbn in Hj; [lia|]. split; [lia|congruence].
      - exists [], [], []. split; [reflexivity|]. split; [apply inv_nil|]. split; [congruence|]. cbn. intros; lia. }
    destruct S0 as (m0 & sols0 & os0 & E0 & I0 & Se & U0).
    match type of E with rbind ?x _ = _ => assert (X : x = Ret (m0, sols0)) by (destruct (t_sender t); exact E0); rewrite X in E; clear X end.
    cbn [rbind] in E. clear E0.
    destruct (inputs_spec id (o_owner_map opts) (t_inputs t) m0 sols0 os0 F2 I0) as (m1 & sols1 & ins1 & ext1 & X & I1 & R1 & U1). rewrite X in E. cbn [rbind] in E. clear X.
    destruct (ops_spec id (t_execute t) m1 sols1 (os0 ++ ext1) F3 I1) as (m2 & sols2 & ops2 & ext2 & X & I2 & R2 & U2). rewrite X in E. cbn [rbind] in E. clear X.
    match type of E with rbind (calc_cost _ _ ?x) _ = _ => destruct (calc_cost base_cost sol_cost x) as [|c] eqn:Ec; [discriminate|] end.
    cbn [rbind] in E. injection E as <-. exists ((os0 ++ ext1) ++ ext2).
    assert (R1' : Forall2 (in_rel (o_owner_map opts) ((os0 ++ ext1) ++ ext2)) (t_inputs t) ins1).
    { eapply Forall2_imp; [|exact R1]. intros i i' (A1 & A2 & A3). split; [exact A1|]. split; [exact A2|]. now apply index_app. }
    cbn [t_id t_sender t_inputs t_outputs t_execute t_solutions t_deploy t_version t_expires t_fee_ratio t_max_fee t_note t_network t_static_cost].
    split; [|split; [|split; [reflexivity|]]].
    - unfold signed_by. cbn [t_id t_sender t_inputs t_execute t_solutions]. destruct I2 as (J1 & J2 & J3 & J4).
      split; [exact J1|]. split; [exact J2|]. split; [exact J3|]. split; [exact R1'|]. split; [exact R2|]. split.
      + intros a Ha Hh. specialize (Se a Ha Hh). rewrite <- app_assoc. rewrite nth_error_app1; [exact Se|]. apply nth_error_Some. congruence.
      + intros j Hj. destruct (Nat.lt_ge_cases j (List.length os0)) as [L0|L0]; [left; exact (U0 j L0)|].
        destruct (Nat.lt_ge_cases j (List.length (os0 ++ ext1))) as [L1|L1].
        * right. left. apply U1. lia.
        * right. right. apply U2. lia.
    - unfold core_of. cbn. rewrite (map_core_inputs _ _ _ _ R1'), (map_core_ops _ _ _ R2). reflexivity.
    - split; [reflexivity|]. split; [reflexivity|]. split; [reflexivity|]. split; [reflexivity|]. split; [reflexivity|]. split; [reflexivity|]. split; [reflexivity|].
      split; [reflexivity|].
      match type of Ec with calc_cost _ _ ?x = _ => match goal with |- calc_cost _ _ ?y <> _ /\ _ =>
        assert (X : calc_cost base_cost sol_cost y = calc_cost base_cost sol_cost x) by (apply calc_cost_same; reflexivity) end end.
      rewrite X, Ec. split; [discriminate|]. intros c' Hc. injection Hc as <-. reflexivity.
  Qed.
End SIGNING.
