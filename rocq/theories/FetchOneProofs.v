(** Proofs about fetch_block in FetchModel. *)
Require Import List Arith NArith Bool Lia.
Require Import Verif.FetchModel Verif.FetchSpec Verif.FetchProofs.
Import ListNotations.
Open Scope N_scope.

Section ONE.
  Variables (min_sync_peers : nat) (hash : N).
  Notation f_go_on := (f_go_on min_sync_peers).
  Notation f_step := (f_step min_sync_peers).

  Record finv (j : fjob) (tr : list obs) : Prop := {
    w_hash : f_hash j = hash;
    w_req : forall id c, List.In (id, c) (f_req j) -> exists q, List.In (Out c id q) tr;
    w_ask : forall c id q, List.In (Out c id q) tr -> q = AskBlock hash;
    w_failed : forall c, List.In c (f_failed j) -> replied_without tr c }.
  Lemma without_more tr tr' c : replied_without tr c -> replied_without (tr ++ tr') c.
  Proof. intros (a & id & q & r & now & pick & b & -> & H). exists a, id, q, r, now, pick, (b ++ tr'). split; [rewrite <- app_assoc; reflexivity|exact H]. Qed.
  Lemma finv_more j tr e : finv j tr -> finv j (tr ++ [In e]).
  Proof.
    intros [A B C D]. constructor; auto.
    - intros id c H. destruct (B _ _ H) as [q Q]. exists q. apply in_or_app. auto.
    - intros c id q H. apply in_app_iff in H as [H|[H|[]]]; [eauto|discriminate].
    - intros c H. apply without_more. auto.
  Qed.
  Lemma finv_ask j next out tr c j' next' out' :
    finv j (tr ++ outs out) -> f_ask (j, next, out) c = (j', next', out') -> finv j' (tr ++ outs out').
  Proof.
    intros [A B C D] E. cbn in E. inversion E; subst j' next' out'. rewrite outs_app, app_assoc.
    constructor; cbn [f_hash f_failed f_pending f_req].
    - exact A.
    - intros id c' H. apply in_put in H as [H|[_ H]].
      + inversion H; subst. eexists. apply in_or_app. right. cbn. left. reflexivity.
      + destruct (B _ _ H) as [q Q]. exists q. apply in_or_app. auto.
    - intros c' id q H. apply in_app_iff in H as [H|[H|[]]]; [eauto|]. inversion H. rewrite A. reflexivity.
    - intros c' H. apply without_more. auto.
  Qed.
  Lemma finv_fold l j next out tr j' next' out' :
    finv j (tr ++ outs out) -> fold_left f_ask l (j, next, out) = (j', next', out') -> finv j' (tr ++ outs out').
  Proof.
    revert j next out. induction l as [|c l IH]; intros j next out H E; [inversion E; subst; exact H|].
    change (fold_left f_ask l (f_ask (j, next, out) c) = (j', next', out')) in E.
    destruct (f_ask (j, next, out) c) as [[j1 n1] o1] eqn:E1. eapply IH; [|exact E]. eapply finv_ask; eauto.
  Qed.
  Lemma finv_go pick j next synced s out tr :
    finv j tr -> f_go_on pick j next synced = (s, out) ->
    match s with
    | FBusy j' _ sy => finv j' (tr ++ outs out) /\ sy = synced
    | FDone None => out = [] /\ forall c, List.In c synced -> replied_without tr c
    | _ => False
    end.
  Proof.
    intros H E. unfold FetchModel.f_go_on in E.
    set (j1 := mk_fjob (f_hash j) (f_failed j) (filter (fun c => mem c synced) (f_pending j)) (f_req j)) in *.
    assert (H1 : finv j1 tr) by (destruct H as [A B C D]; constructor; auto).
    set (clients := filter (fun c => negb (mem c (f_failed j1)) && negb (mem c (f_pending j1))) synced) in *.
    assert (R : forall k, (if (length (f_pending j1) <? min_sync_peers)%nat then
        let '(j, next, out) := fold_left f_ask k (j1, next, []) in (FBusy j next synced, out) else (FBusy j1 next synced, [])) = (s, out) ->
        match s with FBusy j' _ sy => finv j' (tr ++ outs out) /\ sy = synced
        | FDone None => out = [] /\ forall c, List.In c synced -> replied_without tr c | _ => False end).
    { intros k E'. destruct (_ <? _)%nat.
      - destruct (fold_left f_ask k (j1, next, [])) as [[j2 n2] o2] eqn:E2. inversion E'; subst. split; [|reflexivity].
        eapply finv_fold; [|exact E2]. cbn. rewrite app_nil_r. exact H1.
      - inversion E'; subst. cbn. rewrite app_nil_r. auto. }
    destruct clients as [|c0 cl] eqn:Ec; [|eapply R; exact E].
    destruct (f_pending j1) as [|p0 pl] eqn:Ep; [|eapply R; exact E].
    inversion E; subst. split; [reflexivity|]. intros c Hc. apply (w_failed _ _ H1).
    destruct (mem c (f_failed j1)) eqn:M; [apply mem_In; exact M|]. exfalso.
    assert (X : List.In c clients) by (apply filter_In; split; [exact Hc|]; rewrite M; try rewrite Ep; reflexivity).
    rewrite Ec in X. exact X.
  Qed.

  Lemma f_fold_more l s tr s' tr' : fold_left (f_obs min_sync_peers) l (s, tr) = (s', tr') -> exists rest, tr' = tr ++ rest.
  Proof.
    revert s tr. induction l as [|e l IH]; intros s tr E; cbn [fold_left] in E; [inversion E; subst; exists []; rewrite app_nil_r; reflexivity|].
    unfold f_obs at 2 in E. destruct (f_step s e) as [s1 o1]. apply IH in E as [rest ->]. exists (In e :: outs o1 ++ rest). rewrite <- app_assoc. reflexivity.
  Qed.
  Definition finvS (s : fstate) (tr : list obs) (synced : list N) : Prop :=
    match s with FBusy j _ sy => finv j tr /\ sy = synced | FDone (Some b) => exists c, replied_with tr c b | _ => True end.
  Lemma with_more tr tr' c b : replied_with tr c b -> replied_with (tr ++ tr') c b.
  Proof. intros (a & id & q & now & pick & x & -> & H). exists a, id, q, now, pick, (x ++ tr'). split; [rewrite <- app_assoc; reflexivity|exact H]. Qed.
  Lemma f_step_inv s tr synced e s' out rest trF :
    trF = tr ++ In e :: rest -> from_asked trF -> finvS s tr synced -> f_step s e = (s', out) ->
    finvS s' (tr ++ In e :: outs out) (synced_after synced [e]) /\
    ((exists j next sy, s = FBusy j next sy) -> s' = FDone None -> forall c, List.In c (synced_after synced [e]) -> replied_without (tr ++ [In e]) c).
  Proof.
    intros ET FA H E. replace (tr ++ In e :: outs out) with ((tr ++ [In e]) ++ outs out) by (rewrite <- app_assoc; reflexivity).
    destruct s as [j next sy|ob|].
    2:{ inversion E; subst. split; [|intros (? & ? & ? & X); discriminate]. destruct ob as [b|]; cbn in *; [|exact Logic.I].
        destruct H as [c H]. exists c. apply with_more, with_more. exact H. }
    2:{ inversion E; subst. split; [exact Logic.I|discriminate]. }
    destruct H as [H ->]. pose proof (finv_more _ _ e H) as He.
    assert (GO : forall pick j' sy, finv j' (tr ++ [In e]) -> f_go_on pick j' next sy = (s', out) -> sy = synced_after synced [e] ->
        finvS s' ((tr ++ [In e]) ++ outs out) (synced_after synced [e]) /\
        ((exists j1 next1 sy1, FBusy j next synced = FBusy j1 next1 sy1) -> s' = FDone None -> forall c, List.In c (synced_after synced [e]) -> replied_without (tr ++ [In e]) c)).
    { intros pick j' sy H' E' ->. pose proof (finv_go _ _ _ _ _ _ _ H' E') as G. destruct s' as [j2 n2 sy2|[b|]|]; try contradiction.
      - destruct G as [G1 ->]. split; [split; auto|]. discriminate.
      - destruct G as [-> G]. split; [exact Logic.I|]. intros _ _. exact G. }
    destruct e as [from id r now pick|timeout now pick|c|c|n]; cbn [FetchModel.f_step] in E.
    - destruct (get id (f_req j)) as [client|] eqn:Gt.
      + destruct (w_req _ _ H id client (get_in _ _ _ Gt)) as [q Oq].
        assert (from = client) by (symmetry; eapply FA; eauto). subst from.
        destruct r as [h|[b|]| |].
        2:{ inversion E; subst. split; [|discriminate]. exists client. cbn. rewrite app_nil_r. exists tr, id, q, now, pick, []. auto. }
        all: (eapply GO; [|exact E|reflexivity]);
          (destruct He as [A B C D]; constructor; cbn [f_hash f_failed f_pending f_req]; auto;
           [intros i c Y; apply in_erase in Y as [_ Y]; eauto
           |intros c Y; apply in_add in Y as [->|Y]; [|auto]; eexists tr, id, q, _, now, pick, []; split; [reflexivity|]; split; [exact Oq|]; intros x Z; discriminate]).
      + inversion E; subst. cbn. rewrite app_nil_r. split; [auto|discriminate].
    - destruct timeout; [inversion E; subst; split; [exact Logic.I|discriminate]|].
      eapply GO; [exact He|exact E|reflexivity].
    - inversion E; subst. cbn. rewrite app_nil_r. split; [auto|discriminate].
    - inversion E; subst. cbn. rewrite app_nil_r. split; [auto|discriminate].
    - inversion E; subst. cbn. rewrite app_nil_r. split; [auto|discriminate].
  Qed.
  Lemma f_run_inv pick next synced l s tr :
    f_run min_sync_peers hash pick next synced l = (s, tr) -> from_asked tr -> finvS s tr (synced_after synced l).
  Proof.
    intros E FA. unfold f_run in E. destruct (f_go_on _ _ _ _) as [s0 out0] eqn:E0.
    assert (H0 : finvS s0 (outs out0) synced).
    { assert (X : finv (mk_fjob hash [] [] []) []) by (constructor; cbn; auto; intros; contradiction).
      pose proof (finv_go _ _ _ _ _ _ _ X E0) as G. destruct s0 as [j2 n2 sy2|[b|]|]; cbn in *; tauto. }
    clear E0. revert E. generalize (outs out0) H0. clear out0 H0. revert s0 synced.
    induction l as [|e l IH]; intros s0 synced tr0 H0 E; [inversion E; subst; exact H0|].
    cbn [fold_left] in E. unfold f_obs at 2 in E. destruct (f_step s0 e) as [s1 o1] eqn:S1.
    destruct (f_fold_more _ _ _ _ _ E) as [rest Er].
    change (synced_after synced (e :: l)) with (synced_after (synced_after synced [e]) l). eapply IH; [|exact E].
    eapply (f_step_inv s0 tr0 synced e s1 o1 (outs o1 ++ rest) tr); auto. rewrite Er, <- app_assoc. reflexivity.
  Qed.
  Lemma f_run_snoc pick next synced l e s tr s' out :
    f_run min_sync_peers hash pick next synced l = (s, tr) -> f_step s e = (s', out) ->
    f_run min_sync_peers hash pick next synced (l ++ [e]) = (s', tr ++ In e :: outs out).
  Proof.
    unfold f_run. destruct (f_go_on _ _ _ _) as [s0 out0]. intros E S. rewrite fold_left_app, E. cbn [fold_left f_obs]. rewrite S. reflexivity.
  Qed.
End ONE.
