(** Proofs about FetchModel. *)
Require Import List Arith NArith Bool Lia.
Require Import Verif.FetchModel Verif.FetchSpec.
Import ListNotations.
Open Scope N_scope.

Lemma mem_In x l : mem x l = true <-> List.In x l.
Proof.
  unfold mem. rewrite existsb_exists. split.
  - intros [y [H E]]. apply N.eqb_eq in E. subst y. exact H.
  - intros H. exists x. split; [exact H|apply N.eqb_refl].
Qed.
Lemma mem_false x l : mem x l = false <-> ~ List.In x l.
Proof. rewrite <- mem_In. destruct (mem x l); split; congruence. Qed.
Lemma in_add x y l : List.In y (add x l) <-> y = x \/ List.In y l.
Proof.
  unfold add. destruct (mem x l) eqn:E.
  - apply mem_In in E. split; [auto|]. intros [->|H]; auto.
  - cbn. split; intros [H|H]; auto.
Qed.
Lemma nodup_add x l : NoDup l -> NoDup (add x l).
Proof. intros H. unfold add. destruct (mem x l) eqn:E; [exact H|]. constructor; [apply mem_false; exact E|exact H]. Qed.
Lemma in_del x y l : List.In y (del x l) <-> y <> x /\ List.In y l.
Proof.
  unfold del. rewrite filter_In. rewrite negb_true_iff, N.eqb_neq. tauto.
Qed.
Lemma get_in {A} x (m : list (N * A)) v : get x m = Some v -> List.In (x, v) m.
Proof.
  unfold get. destruct (find _ m) as [e|] eqn:E; [|discriminate]. cbn. intros [= <-].
  apply find_some in E as [H E]. apply N.eqb_eq in E. subst x. destruct e; exact H.
Qed.
Lemma in_get {A} x (m : list (N * A)) v : List.In (x, v) m -> exists w, get x m = Some w.
Proof.
  intros H. unfold get. destruct (find _ m) as [e|] eqn:E; [eexists; reflexivity|].
  exfalso. apply (find_none _ _ E) in H. cbn in H. rewrite N.eqb_refl in H. discriminate.
Qed.
Lemma in_erase {A} x (m : list (N * A)) e : List.In e (erase x m) <-> fst e <> x /\ List.In e m.
Proof. unfold erase. rewrite filter_In, negb_true_iff, N.eqb_neq. tauto. Qed.
Lemma in_put {A} x (v : A) m e : List.In e (put x v m) <-> e = (x, v) \/ (fst e <> x /\ List.In e m).
Proof. unfold put. cbn. rewrite in_erase. split; intros [H|H]; auto. Qed.

(** the part that hears about counted clients *)
Section INV.
  Variables (min_sync_peers : nat) (fetch_timeout : N).
  Notation run := (run min_sync_peers fetch_timeout).
  Notation step := (step min_sync_peers fetch_timeout).
  Notation go_on := (go_on min_sync_peers fetch_timeout).

  (** general: a property of jobs with the next number and the outputs *)
  Section KEEP.
    (** [P]: of the job; [G]: of entries of got; [Q]: a request may be noted for a client *)
    Variable P : job -> Prop.
    Hypothesis P0 : P job0.
    Hypothesis Pdrop : forall c j, P j -> P (drop_client c j).
    Hypothesis Preq : forall c id j, P j -> P (request c id j).
    Hypothesis Pwait : forall h t j, P j -> P (set_wait h t j).
    Lemma keep_lost synced j : P j -> P (drop_lost synced j).
    Proof.
      unfold drop_lost. generalize (j_pending j). intros l. revert j.
      induction l as [|c l IH]; intros j H; [exact H|]. cbn. apply IH. destruct (mem c synced); auto.
    Qed.
    Lemma keep_hashes pick synced j next j' next' out : P j -> ask_hashes min_sync_peers pick synced j next = (j', next', out) -> P j'.
    Proof.
      unfold ask_hashes. intros H E. destruct (_ <? _)%nat; [|inversion E; subst; exact H].
      revert E. generalize (@nil (N * N * ask)). match goal with |- context [pick ?a ?b] => generalize (pick a b) end. intros l. revert j next H.
      induction l as [|c l IH]; cbn; intros j next H o E; [inversion E; subst; exact H|].
      eapply IH; [|exact E]. auto.
    Qed.
    Lemma keep_blocks now j next out j' next' out' : P j -> ask_blocks fetch_timeout now (j, next, out) = (j', next', out') -> P j'.
    Proof.
      unfold ask_blocks. intros H. match goal with |- context [filter ?f ?l] => generalize (filter f l) end. intros l. revert j next out H.
      induction l as [|e l IH]; cbn [fold_left]; intros j next out H E; [inversion E; subst; exact H|].
      unfold ask_block1 at 2 in E. destruct (match get _ _ with Some t => t <? now | None => true end); (eapply IH; [|exact E]); auto.
    Qed.
    Lemma keep_go now pick j next synced s out :
      P j -> go_on now pick j next synced = (s, out) ->
      match s with Busy j _ _ => P j
                 | Finished bl => exists j, P j /\ bl = map snd (j_blocks j) /\ (min_sync_peers <= length (j_failed j) + length (j_succ j))%nat end.
    Proof.
      intros H E. unfold FetchModel.go_on in E. pose proof (keep_lost synced j H) as L. set (j1 := drop_lost synced j) in *.
      destruct (_ <? _)%nat eqn:B.
      - destruct (ask_hashes min_sync_peers pick synced j1 next) as [[j2 n2] o2] eqn:E2.
        destruct (ask_blocks fetch_timeout now (j2, n2, o2)) as [[j3 n3] o3] eqn:E3. inversion E; subst.
        eapply keep_blocks; [|exact E3]. eapply keep_hashes; [|exact E2]. exact L.
      - inversion E; subst. exists j1. split; [exact L|]. split; [reflexivity|]. apply Nat.ltb_ge in B. exact B.
    Qed.
    Definition PS (s : state) : Prop :=
      match s with Busy j _ _ => P j
                 | Finished bl => exists j, P j /\ bl = map snd (j_blocks j) /\ (min_sync_peers <= length (j_failed j) + length (j_succ j))%nat end.
    Lemma keep_step s e s' out :
      (forall j id client from r now pick, e = EvReply from id r now pick -> get id (j_req j) = Some client -> P j -> P (close id client (take client r j))) ->
      PS s -> step s e = (s', out) -> PS s'.
    Proof.
      intros T H E. destruct s as [j next synced|bl]; [|inversion E; subst; exact H].
      destruct e as [from id r now pick|timeout now pick|c|c|n]; cbn [FetchModel.step] in E.
      - destruct (get id (j_req j)) as [client|] eqn:G; [|inversion E; subst; exact H].
        eapply keep_go; [|exact E]. eapply T; eauto.
      - destruct (timeout && _); (eapply keep_go; [|exact E]); auto.
      - inversion E; subst; exact H.
      - inversion E; subst; exact H.
      - inversion E; subst; exact H.
    Qed.
  End KEEP.

  (** blocks are stored under their content hash and are valid *)
  Definition blocks_ok (j : job) : Prop := forall k b, List.In (k, b) (j_blocks j) -> k = k_content b /\ k_ok b = true.
  Lemma take_blocks client r j : blocks_ok j -> blocks_ok (take client r j).
  Proof.
    intros H. unfold blocks_ok in *. destruct r as [[h|]|[b|]| |]; cbn [take].
    - exact H.
    - exact H.
    - destruct (k_ok b) eqn:K.
      + match goal with |- context [if ?c then _ else _] => destruct c end; cbn [j_blocks]; intros k b'; rewrite in_put; intros [E|[_ E]]; auto; inversion E; subst; auto.
      + destruct (mem _ _); exact H.
    - destruct (mem _ _); exact H.
    - destruct (get _ _); exact H.
    - exact H.
  Qed.
  Lemma run_blocks now pick next synced l s tr : run now pick next synced l = (s, tr) -> PS blocks_ok s.
  Proof.
    unfold FetchModel.run. destruct (start _ _ _ _ _ _) as [s0 out0] eqn:E0.
    assert (H0 : PS blocks_ok s0).
    { eapply keep_go; [..|exact E0]; try (intros; assumption); intros ? ? []. }
    clear E0. generalize (outs out0). clear out0. revert s0 H0. induction l as [|e l IH]; intros s0 H0 tr0 E; [inversion E; subst; exact H0|].
    cbn [fold_left] in E. unfold step_obs at 2 in E. destruct (step s0 e) as [s1 o1] eqn:S1. eapply IH; [|exact E].
    eapply (keep_step blocks_ok); try exact S1; try (intros; assumption).
    - intros ? ? [].
    - intros j id client from r now' pick' _ _ H. exact (take_blocks client r j H).
  Qed.

  (** ** who is counted *)
  Section HON.
    Variables (D : list N) (b0 : block).
    Definition good (c : N) : Prop := ~ List.In c D.
    (** for a trace [tr] with job [j] and next number *)
    Record inv (j : job) (next : N) (tr : list obs) : Prop := {
      v_req : forall id c, List.In (id, c) (j_req j) -> exists q, List.In (Out c id q) tr;
      v_new : forall c id q, List.In (Out c id q) tr -> id < next;
      v_uni : forall c id q c' q', List.In (Out c id q) tr -> List.In (Out c' id q') tr -> c = c' /\ q = q';
      v_ask : forall c id q, good c -> List.In (Out c id q) tr -> q = AskHash \/ q = AskBlock (k_hash b0);
      v_failed : forall c, good c -> ~ List.In c (j_failed j);
      v_got : forall c h, good c -> List.In (c, h) (j_got j) -> h = (k_hash b0, k_content b0);
      v_succ : forall c, good c -> List.In c (j_succ j) -> exists b, List.In (k_content b0, b) (j_blocks j);
      v_nf : NoDup (j_failed j); v_ns : NoDup (j_succ j);
      v_rep : forall c, (List.In c (j_failed j) \/ List.In c (j_succ j) \/ (exists h, List.In (c, h) (j_got j))) -> replied tr c;
      v_blk : blocks_ok j }.

    Lemma inv_job0 next tr j : inv j next tr -> inv job0 next tr.
    Proof. intros [A B C E F G H I J K VB]. constructor; cbn; try tauto; try (intros; contradiction); auto using NoDup_nil; [intros c [[]|[[]|[h []]]]|intros ? ? []]. Qed.
    Lemma replied_more tr tr' c : replied tr c -> replied (tr ++ tr') c.
    Proof. intros (id & r & now & pick & H). exists id, r, now, pick. apply in_or_app. auto. Qed.
    Lemma inv_ev j next tr e : inv j next tr -> inv j next (tr ++ [In e]).
    Proof.
      intros [A B C E F G H X J K VB].
      assert (O : forall c id q, List.In (Out c id q) (tr ++ [In e]) -> List.In (Out c id q) tr).
      { intros c id q Y. apply in_app_iff in Y as [Y|[Y|[]]]; [exact Y|discriminate]. }
      constructor; eauto.
      - intros id c Y. destruct (A _ _ Y) as [q Z]. exists q. apply in_or_app. auto.
      - intros c Y. apply replied_more. auto.
    Qed.
    Lemma inv_request j next tr c q : inv j next tr -> (good c -> q = AskHash \/ q = AskBlock (k_hash b0)) ->
      inv (request c next j) (next + 1) (tr ++ [Out c next q]).
    Proof.
      intros [A B C E F G H X J K VB] Q.
      assert (O : forall c' id q', List.In (Out c' id q') (tr ++ [Out c next q]) -> List.In (Out c' id q') tr \/ (c' = c /\ id = next /\ q' = q)).
      { intros c' id q' Y. apply in_app_iff in Y as [Y|[Y|[]]]; [auto|]. right. inversion Y. auto. }
      constructor; unfold request; cbn [j_failed j_pending j_succ j_got j_req j_wait j_blocks]; auto.
      - intros id c'. rewrite in_put. cbn [fst]. intros [Y|[_ Y]].
        + inversion Y; subst. exists q. apply in_or_app. cbn. auto.
        + destruct (A _ _ Y) as [q' Z]. exists q'. apply in_or_app. auto.
      - intros c' id q' Y. apply O in Y as [Y|(-> & -> & ->)]; [apply B in Y; lia|lia].
      - intros c1 id q1 c2 q2 Y1 Y2. apply O in Y1 as [Y1|(-> & -> & ->)]; apply O in Y2 as [Y2|(-> & Z & ->)]; try subst id.
        + eapply C; eauto.
        + apply B in Y1. lia.
        + apply B in Y2. lia.
        + auto.
      - intros c' id q' Gc Y. apply O in Y as [Y|(-> & -> & ->)]; eauto.
      - intros c' Y. apply replied_more. auto.
    Qed.
    Lemma inv_wait h t j next tr : inv j next tr -> inv (set_wait h t j) next tr.
    Proof. intros [A B C E F G H X J K VB]. constructor; auto. Qed.
    Lemma inv_drop c j next tr : inv j next tr -> inv (drop_client c j) next tr.
    Proof.
      intros [A B C E F G H X J K VB]. constructor; unfold drop_client; cbn [j_failed j_pending j_succ j_got j_req j_wait j_blocks]; auto.
      - intros c' h Gc Y. apply in_erase in Y as [_ Y]. eauto.
      - intros c' [Y|[Y|[h Y]]]; apply K; auto. apply in_erase in Y as [_ Y]. eauto.
    Qed.
    Lemma inv_lost synced j next tr : inv j next tr -> inv (drop_lost synced j) next tr.
    Proof. intros H. apply (keep_lost (fun j => inv j next tr)); [|exact H]. intros. apply inv_drop. assumption. Qed.
    Lemma outs_app a b : outs (a ++ b) = outs a ++ outs b.
    Proof. apply map_app. Qed.
    Lemma inv_hashes pick synced j next j' next' out tr :
      inv j next tr -> ask_hashes min_sync_peers pick synced j next = (j', next', out) ->
      inv j' next' (tr ++ outs out) /\ (forall e, List.In e (j_got j') -> List.In e (j_got j)).
    Proof.
      unfold ask_hashes. intros H E. destruct (_ <? _)%nat; [|inversion E; subst; cbn; rewrite app_nil_r; auto].
      assert (H' : inv j next (tr ++ outs [])) by (cbn; rewrite app_nil_r; exact H). clear H.
      revert E H'. generalize (@nil (N * N * ask)). match goal with |- context [pick ?a ?b] => generalize (pick a b) end. intros l. revert j next.
      induction l as [|c l IH]; cbn [fold_left]; intros j next o E H; [inversion E; subst; auto|].
      unfold ask_hash1 at 2 in E. apply IH in E as [E1 E2].
      - split; [exact E1|]. intros e Y. apply E2 in Y. exact Y.
      - rewrite outs_app, app_assoc. cbn [outs map fst snd]. apply inv_request; auto.
    Qed.
    Lemma inv_blocks now j next out j' next' out' tr :
      inv j next (tr ++ outs out) -> ask_blocks fetch_timeout now (j, next, out) = (j', next', out') -> inv j' next' (tr ++ outs out').
    Proof.
      unfold ask_blocks. intros H.
      match goal with |- context [filter ?f ?l] => assert (Y : forall e, List.In e (filter f l) -> List.In e (j_got j)) by (intros e Z; apply filter_In in Z; tauto);
        revert Y; generalize (filter f l) end. intros l.
      assert (Z : forall c h, good c -> List.In (c, h) (j_got j) -> h = (k_hash b0, k_content b0)) by (apply (v_got _ _ _ H)).
      intros Y. assert (W : forall c h, good c -> List.In (c, h) l -> h = (k_hash b0, k_content b0)) by (intros; eapply Z; eauto).
      clear Y Z. revert j next out H.
      induction l as [|e l IH]; cbn [fold_left]; intros j next out H E; [inversion E; subst; exact H|].
      unfold ask_block1 at 2 in E. assert (W' : forall c h, good c -> List.In (c, h) l -> h = (k_hash b0, k_content b0)) by (intros; eapply W; cbn; eauto).
      destruct (match get _ _ with Some t => t <? now | None => true end).
      - eapply IH in E; auto. rewrite outs_app, app_assoc. cbn [outs map fst snd]. apply inv_wait, inv_request; [exact H|].
        intros Gc. right. destruct e as [c h]. cbn [fst snd] in *. rewrite (W c h); cbn; auto.
      - eapply IH in E; auto.
    Qed.
    Definition invS (s : state) (tr : list obs) : Prop :=
      match s with Busy j next _ => inv j next tr
      | Finished bl => exists j next, inv j next tr /\ bl = map snd (j_blocks j) /\ (min_sync_peers <= length (j_failed j) + length (j_succ j))%nat end.
    Lemma inv_go now pick j next synced s out tr : inv j next tr -> go_on now pick j next synced = (s, out) -> invS s (tr ++ outs out).
    Proof.
      intros H E. unfold FetchModel.go_on in E. pose proof (inv_lost synced j _ _ H) as L. set (j1 := drop_lost synced j) in *.
      destruct (_ <? _)%nat eqn:B.
      - destruct (ask_hashes min_sync_peers pick synced j1 next) as [[j2 n2] o2] eqn:E2.
        destruct (ask_blocks fetch_timeout now (j2, n2, o2)) as [[j3 n3] o3] eqn:E3. inversion E; subst. cbn.
        eapply inv_blocks; [|exact E3]. eapply (inv_hashes pick synced j1 next); eauto.
      - inversion E; subst. cbn. rewrite app_nil_r. exists j1, next. split; [exact L|]. split; [reflexivity|]. apply Nat.ltb_ge in B. exact B.
    Qed.
    Lemma fold_succ (f : N * (N * N) -> bool) l s c :
      List.In c (fold_left (fun s e => if f e then add (fst e) s else s) l s) <-> List.In c s \/ exists e, List.In e l /\ f e = true /\ fst e = c.
    Proof.
      revert s. induction l as [|e l IH]; intros s; cbn [fold_left].
      - split; [auto|]. intros [H|(e & [] & _)]. exact H.
      - rewrite IH. destruct (f e) eqn:F.
        + rewrite in_add. split.
          * intros [[->|H]|(e' & Y & Z)]; auto; right; [exists e|exists e']; cbn; tauto.
          * intros [H|(e' & [->|Y] & Z)]; auto. left. left. symmetry. tauto. right. exists e'. tauto.
        + split.
          * intros [H|(e' & Y & Z)]; auto. right. exists e'. cbn. tauto.
          * intros [H|(e' & [->|Y] & Z)]; auto. destruct Z. congruence. right. exists e'. tauto.
    Qed.
    Lemma nodup_fold_succ (f : N * (N * N) -> bool) l s :
      NoDup s -> NoDup (fold_left (fun s e => if f e then add (fst e) s else s) l s).
    Proof. revert s. induction l as [|e l IH]; intros s H; [exact H|]. cbn [fold_left]. apply IH. destruct (f e); [apply nodup_add|]; exact H. Qed.
    Lemma inv_close id client j next tr : inv j next tr -> inv (close id client j) next tr.
    Proof.
      intros [A B C E F G H X J K VB]. constructor; unfold close; cbn [j_failed j_pending j_succ j_got j_req j_wait j_blocks]; auto.
      intros i c Y. apply in_erase in Y as [_ Y]. eauto.
    Qed.
    Lemma inv_take j next tr client q id r : inv j next tr -> replied tr client -> List.In (Out client id q) tr -> k_ok b0 = true ->
      (good client -> truthful b0 q r) -> inv (take client r j) next tr.
    Proof.
      intros I0 R Q OK T. pose proof (take_blocks client r j (v_blk _ _ _ I0)) as TB. pose proof I0 as [A B C E F G H X J K VB].
      destruct r as [[h|]|[b|]| |]; cbn [take].
      - constructor; cbn [j_failed j_pending j_succ j_got j_req j_wait j_blocks]; auto.
        + intros c h' Gc Y. apply in_put in Y as [Y|[_ Y]]; [|eauto]. inversion Y; subst. destruct (T Gc) as [T'|T']; [discriminate|].
          destruct q; [|discriminate]. inversion T'; subst; reflexivity.
        + intros c Gc Y. destruct (get (snd h) (j_blocks j)) as [b|] eqn:Eb; [|eauto].
          apply in_add in Y as [->|Y]; [|eauto]. destruct (T Gc) as [T'|T']; [discriminate|]. destruct q; [|discriminate]. inversion T'; subst.
          exists b. apply get_in in Eb. exact Eb.
        + destruct (get _ _); [apply nodup_add|]; exact J.
        + intros c [Y|[Y|[h' Y]]]; [auto| |].
          * destruct (get (snd h) (j_blocks j)); [|auto]. apply in_add in Y as [->|Y]; auto.
          * apply in_put in Y as [Y|[_ Y]]; [inversion Y; subst; exact R|]. apply K. eauto.
      - assert (NG : ~ good client).
        { intros Gc. destruct (T Gc) as [T'|T']; [discriminate|]. destruct q; discriminate. }
        constructor; cbn [j_failed j_pending j_succ j_got j_req j_wait j_blocks]; auto.
        + intros c Gc Y. apply in_add in Y as [->|Y]; [auto|]. eapply F; eauto.
        + apply nodup_add; exact X.
        + intros c [Y|Y]; [|auto]. apply in_add in Y as [->|Y]; auto.
      - assert (GB : good client -> b = b0).
        { intros Gc. destruct (T Gc) as [T'|T']; [discriminate|]. destruct q as [|x]; [discriminate|]. destruct (x =? k_hash b0); inversion T'; auto. }
        destruct (k_ok b) eqn:Kb.
        + match goal with |- context [if mem client (j_succ ?x) then _ else _] => assert (M : mem client (j_succ x) = true) by (apply mem_In; cbn [j_succ]; apply in_add; auto) end.
          rewrite M. cbn [take] in TB. rewrite Kb, M in TB. clear M.
          constructor; cbn [j_failed j_pending j_succ j_got j_req j_wait j_blocks]; auto.
          * intros c Gc Y. apply in_add in Y as [->|Y].
            -- rewrite (GB Gc). exists b0. apply in_put. auto.
            -- apply (fold_succ (fun e => snd (snd e) =? k_content b)) in Y as [Y|(e & Y1 & Y2 & Y3)].
               ++ destruct (H c Gc Y) as [b1 Z]. destruct (N.eq_dec (k_content b0) (k_content b)) as [Ec|Ec].
                  ** rewrite Ec. exists b. apply in_put. auto.
                  ** exists b1. apply in_put. auto.
               ++ destruct e as [c' h]. cbn [fst snd] in *. subst c'. apply N.eqb_eq in Y2. rewrite (G c h Gc Y1) in Y2. cbn in Y2. rewrite Y2. exists b. apply in_put. auto.
          * apply nodup_add. apply (nodup_fold_succ (fun e => snd (snd e) =? k_content b)). exact J.
          * intros c [Y|[Y|Y]]; auto. apply in_add in Y as [->|Y]; [exact R|].
            apply (fold_succ (fun e => snd (snd e) =? k_content b)) in Y as [Y|(e & Y1 & _ & Y3)]; auto.
            apply K. right. right. destruct e as [c' h]. cbn in Y3. subst c'. eauto.
        + assert (NG : ~ good client) by (intros Gc; rewrite (GB Gc) in Kb; congruence).
          match goal with |- context [if ?x then _ else _] => destruct x end;
          (constructor; cbn [j_failed j_pending j_succ j_got j_req j_wait j_blocks]; auto).
          * intros c Gc Y. apply in_add in Y as [->|Y]; [auto|]. eapply F; eauto.
          * apply nodup_add; exact X.
          * intros c [Y|Y]; [|auto]. apply in_add in Y as [->|Y]; auto.
      - destruct (mem client (j_succ j)); [exact I0|].
        assert (NG : ~ good client).
        { intros Gc. destruct (T Gc) as [T'|T']; [discriminate|]. destruct q as [|x]; [discriminate|].
          destruct (v_ask _ _ _ I0 client id (AskBlock x) Gc Q) as [Z|Z]; [discriminate|]. inversion Z; subst x. rewrite N.eqb_refl in T'. discriminate. }
        constructor; cbn [j_failed j_pending j_succ j_got j_req j_wait j_blocks]; auto.
        + intros c Gc Y. apply in_add in Y as [->|Y]; [auto|]. eapply F; eauto.
        + apply nodup_add; exact X.
        + intros c [Y|Y]; [|auto]. apply in_add in Y as [->|Y]; auto.
      - destruct (get client (j_got j)); [|exact I0]. constructor; auto.
      - exact I0.
    Qed.
    Lemma inv_next j next next' tr : inv j next tr -> next <= next' -> inv j next' tr.
    Proof. intros [A B C E F G H X J K VB] L. constructor; auto. intros c id q Y. apply B in Y. lia. Qed.

    Lemma step_inv s tr e s' out rest trF :
      k_ok b0 = true -> trF = tr ++ In e :: rest -> from_asked trF -> (forall c, good c -> honest b0 trF c) ->
      invS s tr -> step s e = (s', out) -> invS s' (tr ++ In e :: outs out).
    Proof.
      intros OK ET FA HO H E. replace (tr ++ In e :: outs out) with ((tr ++ [In e]) ++ outs out) by (rewrite <- app_assoc; reflexivity).
      destruct s as [j next synced|bl].
      2:{ inversion E; subst. cbn in H |- *. destruct H as (j & next & H1 & H2). exists j, next. split; [|exact H2]. rewrite app_nil_r. apply inv_ev; exact H1. }
      cbn in H. pose proof (inv_ev _ _ _ e H) as He.
      destruct e as [from id r now pick|timeout now pick|c|c|n]; cbn [FetchModel.step] in E.
      - destruct (get id (j_req j)) as [client|] eqn:Gt.
        + eapply inv_go; [|exact E]. apply inv_close.
          destruct (v_req _ _ _ H id client (get_in _ _ _ Gt)) as [q Oq].
          assert (from = client) by (symmetry; eapply FA; eauto). subst from.
          eapply inv_take; [exact He|exists id, r, now, pick; apply in_or_app; cbn; auto|apply in_or_app; left; exact Oq|exact OK|].
          intros Gc. eapply HO; eauto.
        + inversion E; subst. cbn. rewrite app_nil_r. exact He.
      - destruct (timeout && _); (eapply inv_go; [|exact E]); [eapply inv_job0|]; exact He.
      - inversion E; subst. cbn. rewrite app_nil_r. exact He.
      - inversion E; subst. cbn. rewrite app_nil_r. exact He.
      - inversion E; subst. cbn. rewrite app_nil_r. eapply inv_next; [exact He|lia].
    Qed.
    Lemma fold_more l s tr s' tr' : fold_left (step_obs min_sync_peers fetch_timeout) l (s, tr) = (s', tr') -> exists rest, tr' = tr ++ rest.
    Proof.
      revert s tr. induction l as [|e l IH]; intros s tr E; cbn [fold_left] in E; [inversion E; subst; exists []; rewrite app_nil_r; reflexivity|].
      unfold step_obs at 2 in E. destruct (step s e) as [s1 o1]. apply IH in E as [rest ->]. exists (In e :: outs o1 ++ rest). rewrite <- app_assoc. reflexivity.
    Qed.
    Lemma run_inv now pick next synced l s tr :
      run now pick next synced l = (s, tr) -> k_ok b0 = true -> from_asked tr -> (forall c, good c -> honest b0 tr c) -> invS s tr.
    Proof.
      intros E OK FA HO. unfold FetchModel.run in E. destruct (start _ _ _ _ _ _) as [s0 out0] eqn:E0.
      assert (H0 : invS s0 (outs out0)).
      { change (outs out0) with ([] ++ outs out0). eapply inv_go; [|exact E0].
        constructor; cbn; try tauto; try (intros; contradiction); try apply NoDup_nil; [intros c [[]|[[]|[h []]]]|intros ? ? []]. }
      clear E0. revert E. generalize (outs out0) H0. clear out0 H0. revert s0.
      induction l as [|e l IH]; intros s0 tr0 H0 E; [inversion E; subst; exact H0|].
      cbn [fold_left] in E. unfold step_obs at 2 in E. destruct (step s0 e) as [s1 o1] eqn:S1.
      destruct (fold_more _ _ _ _ _ E) as [rest Er]. apply (IH s1 (tr0 ++ In e :: outs o1)); [|exact E].
      eapply (step_inv s0 tr0 e s1 o1 (outs o1 ++ rest) tr); auto. rewrite Er, <- app_assoc. reflexivity.
    Qed.
  End HON.
End INV.
