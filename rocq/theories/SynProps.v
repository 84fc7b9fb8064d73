(** * C114: A node that says it is synced has asked for every block *)
From Coq Require Import List NArith ZArith Bool Lia.
Require Import Verif.SynModel Verif.SynSpec Verif.SynProofs.
Import ListNotations.
Local Open Scope N_scope.

(** Whatever answers come, in whatever order, and whatever fails: when the node
    reports that it is synced (the event [EDone] with the record [x] before
    it), the end of the chain was found: some height p had no blocks; and every
    height from where the sync began up to p has been answered, except those
    whose request failed and was not repeated.  ([settled a]: no request of an
    earlier sync was outstanding when this one began.) *)
Theorem C114_answered : forall c height mp l b x r t a,
  tr (run c height mp l) = b ++ EDone :: x ->
  this_sync x r t a -> Forall not_done t ->
  exists p, In (EAns p 0) t
    /\ (settled a -> forall h, r < h < p -> answered t h \/ given_up t h).
Proof.
  intros c height mp l b x r t a E T F.
  destruct (g_claims _ _ _ _ _ (i_g _ _ (inv_run c height mp l)) b EDone x E r t a T F) as [_ [_ [p [I [H _]]]]].
  exists p. split; [exact I | exact H].
Qed.
Print Assumptions C114_answered.

(** If moreover no request was outstanding whenever a sync or another search
    for the end began, every such height was answered with blocks, or a block
    at that height has been committed since. *)
Theorem C114_blocks : forall c height mp l b x r t a,
  tr (run c height mp l) = b ++ EDone :: x ->
  this_sync x r t a -> Forall not_done t -> quiet x ->
  exists p, In (EAns p 0) t
    /\ forall h, r < h < p -> answered_with_blocks t h \/ In (ECommit h) t \/ given_up t h.
Proof.
  intros c height mp l b x r t a E T F Q.
  destruct (g_claims _ _ _ _ _ (i_g _ _ (inv_run c height mp l)) b EDone x E r t a T F) as [_ [_ [p [I [_ H]]]]].
  exists p. split; [exact I | exact (H Q)].
Qed.
Print Assumptions C114_blocks.

(** The end was found once more than the number of retries, and the searches
    are more than half a block interval apart. *)
Theorem C114_confirmed : forall c height mp l b x r t a,
  tr (run c height mp l) = b ++ EDone :: x ->
  this_sync x r t a -> Forall not_done t ->
  N.of_nat (count is_empty_answer t) >= c_retries c + 1
  /\ N.of_nat (count is_retry t) >= c_retries c.
Proof.
  intros c height mp l b x r t a E T F.
  destruct (g_claims _ _ _ _ _ (i_g _ _ (inv_run c height mp l)) b EDone x E r t a T F) as [A [B _]].
  split; assumption.
Qed.
Print Assumptions C114_confirmed.

Theorem C114_spaced : forall c height mp l b now x m n a,
  tr (run c height mp l) = b ++ ERetry now :: x ->
  x = m ++ ERetry n :: a -> count is_retry m = 0%nat ->
  (c_interval c / 2 < now - n)%Z.
Proof.
  intros c height mp l b now x m n a E E2 K.
  exact (g_claims _ _ _ _ _ (i_g _ _ (inv_run c height mp l)) b (ERetry now) x E m n a E2 K).
Qed.
Print Assumptions C114_spaced.

(** While syncing, a block is committed only when its height has been answered
    in this sync (or its request failed and was not repeated). *)
Theorem C114_commit : forall c height mp l b h x r t a,
  tr (run c height mp l) = b ++ ECommit h :: x ->
  this_sync x r t a -> Forall not_done t -> settled a -> r < h ->
  answered t h \/ given_up t h.
Proof.
  intros c height mp l b h x r t a E T F S L.
  exact (g_claims _ _ _ _ _ (i_g _ _ (inv_run c height mp l)) b (ECommit h) x E r t a T F S L).
Qed.
Print Assumptions C114_commit.

(** Height 0 is never asked for. *)
Theorem C114_no_genesis : forall c height mp l h,
  In (EReq h) (tr (run c height mp l)) -> h <> 0.
Proof.
  intros c height mp l h I. apply in_split in I. destruct I as [b [a E]].
  exact (g_claims _ _ _ _ _ (i_g _ _ (inv_run c height mp l)) b (EReq h) a E).
Qed.
Print Assumptions C114_no_genesis.

(** The sync does not stop: after every update the node is synced, or a request
    is outstanding, or it has reached the limit of blocks that it holds in
    memory, or it has found the end and waits before it looks again. *)
Theorem C114_progress : forall c height mp l e,
  let s := run c height mp (l ++ [OUpdate e]) in
  synced s = true
  \/ ~ settled (tr s)
  \/ (root s < pos s /\ c_delay c + c_ahead c < pos s - root s)
  \/ (exists p, peak s = Some p /\ p <= pos s /\ (e_now e - finish s <= c_interval c / 2)%Z).
Proof.
  intros c height mp l e s. unfold s, run. rewrite fold_left_app. cbn [fold_left step].
  destruct (update_progress c _ e (inv_run c height mp l)) as [K | [K | [K | K]]]; auto.
  right; right; left. unfold at_limit in K. apply andb_true_iff in K. destruct K as [K1 K2].
  apply N.ltb_lt in K1. apply N.ltb_lt in K2. auto.
Qed.
Print Assumptions C114_progress.

(** A node that starts a sync forgets that it was synced, and only the end of a
    sync makes it synced again: between a start and the next [EDone] it says
    that it is not. *)
Theorem C114_says_so : forall c height mp l r t a,
  this_sync (tr (run c height mp l)) r t a ->
  (synced (run c height mp l) = true <-> In EDone t).
Proof.
  intros c height mp l r t a T. pose proof (inv_run c height mp l) as V. split; intros H.
  - pose proof (i_yes _ _ V H r t a T) as N. clear - N.
    induction t as [| e t IH]; [exfalso; apply N; constructor |].
    destruct e; try (right; apply IH; intros F; apply N; constructor; [exact I | exact F]).
    left; reflexivity.
  - destruct (synced (run c height mp l)) eqn:S; auto.
    destruct (i_no _ _ V S) as [r' [t' [a' [T' [F _]]]]].
    destruct (this_sync_fun _ _ _ _ _ _ _ T T') as [<- [<- <-]].
    rewrite Forall_forall in F. destruct (F EDone H).
Qed.
Print Assumptions C114_says_so.

(** ** The claim without exception is false *)

(** The defaults, and answers with one good block or none. *)
Definition cf := Conf true 64 1000 3 100 18 10000.
Definition ok := [Blk 1000 true].
Definition at_ms (now : Z) := Env now 4 1000000 0 0 18.

(** Another search for the end at time [now]: 13 has a block, 14 and 15 have
    none. *)
Definition search (now : Z) : list op :=
  [OUpdate (at_ms now); OAnswer 13 ok (at_ms now); OAnswer 14 [] (at_ms now); OAnswer 15 [] (at_ms now)].

(** The node is at height 10.  Heights 11, 13 and 14 are answered (the last one
    with no blocks: the chain ends at 13), the request for 12 fails, as the last
    one.  Nothing is outstanding then, so the next update takes 14 for the end
    of the chain and looks for it again from height 13.  At last the node says
    that it is synced, and height 12 was never answered. *)
Definition lost : list op :=
  [OAnswer 11 ok (at_ms 1000000); OAnswer 13 ok (at_ms 1000000);
   OAnswer 14 [] (at_ms 1000000); OAnswer 15 [] (at_ms 1000000); OAnswer 16 [] (at_ms 1000000);
   OFailure 12] ++
  search 1010000 ++ search 1020000 ++ search 1030000 ++ [OUpdate (at_ms 1040000)].

Theorem C114_lost_refuted :
  let s := run cf 10 4 lost in
  synced s = true
  /\ tr s = rev
       [EStart 10; EReq 11; EReq 12; EReq 13; EReq 14; EAns 11 1; EReq 15; EAns 13 1; EReq 16;
        EAns 14 0; EAns 15 0; EAns 16 0; EFail 12;
        ERetry 1010000; EReq 13; EReq 14; EAns 13 1; EReq 15; EAns 14 0; EAns 15 0;
        ERetry 1020000; EReq 13; EReq 14; EAns 13 1; EReq 15; EAns 14 0; EAns 15 0;
        ERetry 1030000; EReq 13; EReq 14; EAns 13 1; EReq 15; EAns 14 0; EAns 15 0;
        EDone]
  /\ ~ answered (tr s) 12.
Proof.
  vm_compute. split; [reflexivity |]. split; [reflexivity |].
  intros [n H]. repeat (destruct H as [H | H]; [discriminate |]). exact H.
Qed.
Print Assumptions C114_lost_refuted.

(** A sync with a failure that is repeated: answers come in any order, blocks
    are committed, and the node ends synced. *)
Definition fine : list op :=
  [OAnswer 12 ok (at_ms 1000000); OFailure 11; OAnswer 13 ok (at_ms 1000000);
   OAnswer 11 ok (at_ms 1000000); OAnswer 12 ok (at_ms 1000000); OAnswer 13 ok (at_ms 1000000);
   OAnswer 14 [Blk 9000000 true] (at_ms 1000000); OAnswer 15 [] (at_ms 1000000);
   OAnswer 14 [] (at_ms 1000000); OAnswer 15 [] (at_ms 1000000);
   OAnswer 16 [] (at_ms 1000000); OAnswer 17 [] (at_ms 1000000)].
Definition line (now : Z) := Env now 4 1000000 3 13 2.
Definition fine2 : list op :=
  fine ++ [OUpdate (line 1010000); OAnswer 13 ok (at_ms 1000000); OAnswer 14 [] (at_ms 1010000); OAnswer 15 [] (at_ms 1010000)]
  ++ search 1020000 ++ search 1030000 ++ [OUpdate (at_ms 1040000)].

Lemma fine2_quiet : quiet (tl (tr (run cf 10 4 fine2))).
Proof.
  apply quiet_b_ok. vm_compute. reflexivity.
Qed.

Example C114_case : exists t,
  tr (run cf 10 4 fine2) = [] ++ EDone :: t ++ [EStart 10]
  /\ this_sync (t ++ [EStart 10]) 10 t [] /\ Forall not_done t /\ settled []
  /\ quiet (t ++ [EStart 10])
  /\ In (ECommit 11) t /\ In (EFail 11) t
  /\ (forall h, 10 < h < 14 -> answered_with_blocks t h).
Proof.
  exists (firstn 46 (tl (tr (run cf 10 4 fine2)))).
  split; [vm_compute; reflexivity |].
  split; [split; [reflexivity | vm_compute; repeat constructor] |].
  split; [vm_compute; repeat constructor |].
  split; [intros h; reflexivity |].
  split.
  { replace (firstn 46 _ ++ _) with (tl (tr (run cf 10 4 fine2))) by (vm_compute; reflexivity).
    exact fine2_quiet. }
  split; [vm_compute; tauto |]. split; [vm_compute; tauto |].
  intros h L. exists 1. split; [discriminate |].
  assert (h = 11 \/ h = 12 \/ h = 13) as [-> | [-> | ->]] by lia; vm_compute; tauto.
Qed.

(** ** What failed is asked for next: when a request for a height that was asked for fails and there is room for a request, then the next one is for that height. *)
Lemma loop_tr m : forall fuel s, exists l, tr (more_loop fuel s m) = l ++ tr s.
Proof.
  induction fuel as [|f IH]; intros s; cbn [more_loop]; [exists []; reflexivity|]. destruct (more_cond s m); [|exists []; reflexivity].
  destruct (IH (sync_height (set_pos s (pos s + 1)) (pos s))) as (l & ->). exists (l ++ [EReq (pos s)]). cbn. rewrite <- app_assoc. reflexivity.
Qed.
Theorem C114_again : forall c s h mp, In h (flight s) -> synced s = false -> 0 < h < pos s ->
  let s1 := step c s (OFailure h) in
  at_limit c s1 = false -> (forall p, peak s = Some p -> h < p) -> N.of_nat (length (pend s1)) < max_pending s1 mp ->
  exists l, tr (sync_more c s1 mp) = l ++ EReq h :: EFail h :: tr s.
Proof.
  intros c s h mp I SY LT s1 AL PK RO. assert (E1 : s1 = sync_failed s h) by (unfold s1; cbn [step]; apply mem_In in I; now rewrite I).
  assert (P1 : pos s1 = h) by (rewrite E1; cbn; lia). assert (T1 : tr s1 = EFail h :: tr s) by (rewrite E1; reflexivity).
  assert (S1 : synced s1 = false) by (rewrite E1; exact SY). assert (K1 : peak s1 = peak s) by (rewrite E1; reflexivity). clearbody s1. clear E1.
  unfold sync_more. rewrite S1. assert (B : begin_pos s1 = s1) by (unfold begin_pos; destruct (N.eqb_spec (pos s1) 0); [lia|reflexivity]).
  cbv zeta. rewrite B, AL. destruct (N.to_nat (max_pending s1 mp) + length (pend s1))%nat as [|f] eqn:F; [lia|]. cbn [more_loop].
  assert (C : more_cond s1 (max_pending s1 mp) = true).
  { unfold more_cond. apply andb_true_iff. split; [apply N.ltb_lt; exact RO|]. rewrite K1, P1. destruct (peak s) as [p|]; [apply N.ltb_lt; auto|reflexivity]. }
  rewrite C. destruct (loop_tr (max_pending s1 mp) f (sync_height (set_pos s1 (pos s1 + 1)) (pos s1))) as (l & ->). exists l. cbn. rewrite P1, T1. reflexivity.
Qed.
Print Assumptions C114_again.
