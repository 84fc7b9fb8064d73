(** Proofs of C01-C06 from the refinement. *)
Require Import List Sorted Arith NArith Lia Bool.
Require Import Verif.OrdLib Verif.DbModel Verif.DbSpec Verif.DbBlockProofs Verif.DbCrashProofs Verif.DbRefineProofs.
Import ListNotations.
Open Scope N_scope.

Lemma Natcompare_total : TotalCmp Nat.compare.
Proof.
  split; intros.
  - apply Nat.compare_eq_iff.
  - apply Nat.compare_antisym.
  - rewrite Nat.compare_lt_iff in *. lia.
Qed.
Lemma default_cmp_total : TotalCmp default_cmp.
Proof.
  pose proof (lexcmp_total Natcompare_total bytescmp_total) as T.
  assert (E : forall x y, default_cmp x y = lexcmp Nat.compare bytescmp (length x, x) (length y, y)) by reflexivity.
  split; intros; rewrite !E in *.
  - rewrite (tc_eq T). split; [congruence|intros ->; auto].
  - apply (tc_opp T).
  - eapply (tc_trans T); eauto.
Qed.

Section P.
  Context {K V : Type} (kcmp : K -> K -> comparison).
  Hypothesis TK : TotalCmp kcmp.
  Implicit Types (evs : list (@event K V)) (ops : list (@op K V)).

  Lemma spec_ops_run ops : forall (a a' : spec), spec_run (map EvOp ops) a a' <-> a' = fold_left (fun a o => spec_op o a) ops a.
  Proof.
    induction ops as [|o ops IH]; intros a a'; simpl; [tauto|]. split.
    - intros (a1 & -> & H). apply IH. auto.
    - intros ->. exists (spec_op o a). split; auto. apply IH. auto.
  Qed.

  Lemma uevents_ok evs : Forall uevent evs -> Forall event_ok evs.
  Proof. apply Forall_impl. intros [o|[o|] m n opens]; auto. Qed.

  Lemma run_rel lf evs : Forall uevent evs -> exists s a, run kcmp lf evs = Some s /\ rel kcmp s a /\ spec_run evs (@a_init K V) a.
  Proof.
    intros F. destruct (@rel_init K V kcmp TK lf) as (s0 & E0 & R0). unfold run. rewrite E0.
    apply (rel_run kcmp TK lf evs s0 _ R0). apply uevents_ok; auto.
  Qed.

  Lemma run_app lf evs1 evs2 s : run kcmp lf evs1 = Some s -> run kcmp lf (evs1 ++ evs2) = sys_run kcmp lf s evs2.
  Proof.
    unfold run. destruct (init_sys kcmp lf) as [s0|]; [|discriminate]. revert s0.
    induction evs1 as [|ev evs1 IH]; intros s0; simpl; [intros [= ->]; auto|].
    destruct (sys_step kcmp lf s0 ev); [auto|discriminate].
  Qed.

  Lemma ucalls_events ops : Forall ucall ops -> Forall uevent (map EvOp ops).
  Proof. induction 1; simpl; constructor; auto. Qed.

  Lemma after_rel lf ops : Forall ucall ops -> exists s, after kcmp lf ops = Some s /\ rel kcmp s (spec_after ops).
  Proof.
    intros F. destruct (run_rel lf (map EvOp ops) (ucalls_events _ F)) as (s & a & E & R & S).
    apply spec_ops_run in S. subst. exists s. auto.
  Qed.

  Lemma C01_proof : forall lf ops, Forall ucall ops ->
    exists s, after kcmp lf ops = Some s /\ forall k mv, find kcmp (s_tab s) k mv = a_find (key_eqb kcmp) (spec_after ops) k mv.
  Proof.
    intros lf ops F. destruct (after_rel lf ops F) as (s & E & R). exists s. split; auto. intros. apply rel_find; auto.
  Qed.

  Lemma spec_forget ops : forall a : @spec K V, fold_left (fun a o => spec_op o a) (map forget_flush ops) a = fold_left (fun a o => spec_op o a) ops a.
  Proof. induction ops as [|o ops IH]; intros a; simpl; auto. rewrite IH. destruct o; auto. Qed.
  Lemma ucall_forget ops1 ops2 : map forget_flush ops1 = map forget_flush ops2 -> Forall ucall ops1 -> Forall ucall ops2.
  Proof.
    revert ops2. induction ops1 as [|o ops1 IH]; intros [|o2 ops2] H F; try discriminate; auto.
    simpl in H. injection H as H1 H2. inversion F; subst. constructor; auto. destruct o, o2; simpl in *; try discriminate; auto.
    injection H1 as ->. auto.
  Qed.

  Lemma C02_proof : forall lf1 lf2 ops1 ops2, Forall ucall ops1 -> map forget_flush ops1 = map forget_flush ops2 ->
    exists s1 s2, after kcmp lf1 ops1 = Some s1 /\ after kcmp lf2 ops2 = Some s2 /\ t_cur (s_tab s1) = t_cur (s_tab s2) /\
      forall k mv, find kcmp (s_tab s1) k mv = find kcmp (s_tab s2) k mv.
  Proof.
    intros lf1 lf2 ops1 ops2 F H. destruct (after_rel lf1 ops1 F) as (s1 & E1 & R1).
    destruct (after_rel lf2 ops2 (ucall_forget _ _ H F)) as (s2 & E2 & R2).
    assert (E : spec_after ops1 = spec_after ops2) by (unfold spec_after; rewrite <- (spec_forget ops1), H; apply spec_forget).
    exists s1, s2. split; auto. split; auto. rewrite (rl_cur _ _ _ R1), (rl_cur _ _ _ R2), E. split; auto.
    intros k mv. rewrite (rel_find kcmp TK _ _ _ _ R1), (rel_find kcmp TK _ _ _ _ R2), E. auto.
  Qed.

  Lemma a_find_drop (ws : list (@write K V)) c n k mv : StronglySorted vle ws ->
    a_find (key_eqb kcmp) (mk_spec c (drop_from n ws)) k mv =
      (if mv <? n then a_find (key_eqb kcmp) (mk_spec c ws) k mv
       else if n =? 0 then None else a_find (key_eqb kcmp) (mk_spec c ws) k (n - 1)).
  Proof.
    intros S. unfold a_find, drop_from. simpl.
    assert (G : forall acc, fold_left (fun acc (w : write) => if key_eqb kcmp (wkey w) k && (wver w <=? mv) then Some (wval w) else acc)
              (filter (fun w => wver w <? n) ws) acc =
            fold_left (fun acc (w : write) => if key_eqb kcmp (wkey w) k && ((wver w <=? mv) && (wver w <? n)) then Some (wval w) else acc) ws acc).
    { clear S. induction ws as [|w ws IH]; intros acc; simpl; auto. destruct (wver w <? n); simpl.
      - rewrite IH, andb_true_r. auto.
      - rewrite IH, andb_false_r, andb_false_r. auto. }
    rewrite G.
    assert (Gext : forall (f g : write -> bool) acc, (forall w, f w = g w) ->
       fold_left (fun acc (w : write) => if key_eqb kcmp (wkey w) k && f w then Some (wval w) else acc) ws acc =
       fold_left (fun acc (w : write) => if key_eqb kcmp (wkey w) k && g w then Some (wval w) else acc) ws acc).
    { intros f g. clear G S. induction ws as [|w ws IH]; intros acc H; simpl; auto. rewrite H. apply IH; auto. }
    destruct (N.ltb_spec mv n).
    - apply Gext. intros w. destruct (N.leb_spec (wver w) mv), (N.ltb_spec (wver w) n); simpl; auto; lia.
    - destruct (N.eqb_spec n 0).
      + transitivity (fold_left (fun acc (w : write) => if key_eqb kcmp (wkey w) k && false then Some (wval w) else acc) ws None).
        * apply Gext. intros w. destruct (N.ltb_spec (wver w) n); [lia|]. rewrite andb_false_r. auto.
        * clear. induction ws as [|w ws IH]; simpl; auto. rewrite andb_false_r. auto.
      + apply Gext. intros w. destruct (N.leb_spec (wver w) mv), (N.ltb_spec (wver w) n), (N.leb_spec (wver w) (n - 1)); simpl; auto; lia.
  Qed.

  Lemma C03_proof : forall lf ops n s, Forall ucall ops -> after kcmp lf ops = Some s -> n <= t_cur (s_tab s) ->
    exists s', after kcmp lf (ops ++ [ORevert n]) = Some s' /\ t_cur (s_tab s') = n /\
      (forall k mv, mv < n -> find kcmp (s_tab s') k mv = find kcmp (s_tab s) k mv) /\
      (forall k mv, 0 < n -> n <= mv -> find kcmp (s_tab s') k mv = find kcmp (s_tab s) k (n - 1)) /\
      (forall k mv, n = 0 -> find kcmp (s_tab s') k mv = None).
  Proof.
    intros lf ops n s F E Hn. destruct (after_rel lf ops F) as (s0 & E0 & R). rewrite E in E0. injection E0 as <-.
    destruct (after_rel lf (ops ++ [ORevert n])) as (s' & E' & R'). { apply Forall_app. split; auto. repeat constructor. }
    assert (Hs : spec_after (ops ++ [ORevert n]) = mk_spec n (drop_from n (a_writes (spec_after ops)))).
    { unfold spec_after. rewrite fold_left_app. simpl. fold (@spec_after K V ops). unfold a_revert.
      rewrite <- (rl_cur _ _ _ R). assert (t_cur (s_tab s) <? n = false) by (apply N.ltb_ge; auto). rewrite H. auto. }
    rewrite Hs in R'. exists s'. split; auto. split; [apply (rl_cur _ _ _ R')|].
    assert (G : forall k mv, find kcmp (s_tab s') k mv = (if mv <? n then find kcmp (s_tab s) k mv
       else if n =? 0 then None else find kcmp (s_tab s) k (n - 1))).
    { intros k mv. rewrite (rel_find kcmp TK _ _ _ _ R'), !(rel_find kcmp TK _ _ _ _ R).
      exact (a_find_drop _ n n k mv (rl_sorted _ _ _ R)). }
    split; [|split]; intros k mv; rewrite G; intros.
    - apply N.ltb_lt in H. rewrite H. auto.
    - apply N.ltb_ge in H0. rewrite H0. destruct (N.eqb_spec n 0); [lia|auto].
    - subst. destruct (N.ltb_spec mv 0); [lia|auto].
  Qed.

  Lemma C04_proof : forall lf evs, Forall uevent evs ->
    exists s a, run kcmp lf evs = Some s /\ spec_run evs (@a_init K V) a /\
      t_cur (s_tab s) = a_cur a /\ forall k mv, find kcmp (s_tab s) k mv = a_find (key_eqb kcmp) a k mv.
  Proof.
    intros lf evs F. destruct (run_rel lf evs F) as (s & a & E & R & S). exists s, a. split; auto. split; auto.
    split; [apply (rl_cur _ _ _ R)|]. intros. apply rel_find; auto.
  Qed.

  Lemma C04_survives_proof : forall lf evs s n opens, Forall uevent evs -> run kcmp lf evs = Some s ->
    exists s', run kcmp lf (evs ++ [EvCrash None 0 n opens]) = Some s' /\
      (forall k mv, mv < t_cur (s_tab s) -> find kcmp (s_tab s') k mv = find kcmp (s_tab s) k mv) /\
      (forall k mv, 0 < t_cur (s_tab s) -> t_cur (s_tab s) <= mv -> find kcmp (s_tab s') k mv = find kcmp (s_tab s) k (t_cur (s_tab s) - 1)).
  Proof.
    intros lf evs s n opens F E. destruct (run_rel lf evs F) as (s0 & a & E0 & R & _). rewrite E in E0. injection E0 as <-.
    rewrite (run_app _ _ _ _ E). destruct (rel_event kcmp TK lf s a (EvCrash None 0 n opens) R I) as (s' & a' & E' & R' & (S1 & S2 & S3)).
    cbn [sys_run]. rewrite E'. exists s'. split; auto.
    assert (G : forall k mv, find kcmp (s_tab s') k mv = (if mv <? a_cur a then find kcmp (s_tab s) k mv
       else if a_cur a =? 0 then None else find kcmp (s_tab s) k (a_cur a - 1))).
    { intros k mv. rewrite (rel_find kcmp TK _ _ _ _ R'), !(rel_find kcmp TK _ _ _ _ R).
      pose proof (a_find_drop (a_writes a) (a_cur a) (a_cur a) k mv (rl_sorted _ _ _ R)) as H.
      unfold a_find in *. simpl in *. rewrite S1. exact H. }
    rewrite (rl_cur _ _ _ R). split; intros k mv; rewrite G; intros.
    - apply N.ltb_lt in H. rewrite H. auto.
    - apply N.ltb_ge in H0. rewrite H0. destruct (N.eqb_spec (a_cur a) 0); [lia|auto].
  Qed.

  Definition no_cmd (l : list (@logrec K V)) : Prop := Forall (fun r => exists n k v, r = LEntry n k v) l.
  Lemma no_cmd_last l x j : no_cmd l -> last_cmd x (firstn j l) = x.
  Proof.
    revert j x. induction l as [|r l IH]; intros [|j] x H; auto. inversion H as [|? ? (n & k & v & ->) Hl]; subst.
    unfold last_cmd in *. simpl. apply IH; auto.
  Qed.

  Lemma inserts_run lf (ins : list (K * V)) : forall s a, rel kcmp s a -> no_cmd (w_pend (s_world s)) ->
    exists s' a', sys_run kcmp lf s (map (fun p => EvOp (OInsert (fst p) (snd p))) ins) = Some s' /\ rel kcmp s' a' /\
      w_log (s_world s') = w_log (s_world s) /\ no_cmd (w_pend (s_world s')).
  Proof.
    induction ins as [|(k, v) ins IH]; intros s a R H; simpl.
    - exists s, a. auto.
    - destruct (rel_op kcmp TK lf s a (OInsert k v) R I) as (s1 & E1 & R1). simpl in E1. injection E1 as <-.
      destruct (IH _ _ R1) as (s' & a' & E' & R' & W1 & W2).
      + simpl. apply Forall_app. split; auto. constructor; auto. eauto.
      + exists s', a'. split; [exact E'|]. auto.
  Qed.

  Lemma sys_run_app lf evs1 evs2 : forall s, sys_run kcmp lf s (evs1 ++ evs2) =
    match sys_run kcmp lf s evs1 with Some s' => sys_run kcmp lf s' evs2 | None => None end.
  Proof. induction evs1 as [|ev evs1 IH]; intros s; simpl; auto. destruct (sys_step kcmp lf s ev); auto. Qed.

  Lemma C05_partial_proof : forall lf evs s n (ins : list (K * V)) j, Forall uevent evs -> run kcmp lf evs = Some s ->
    t_cur (s_tab s) < n -> n < 4294967295 ->
    exists s', run kcmp lf (evs ++ EvOp (OCommit n false) :: map (fun p => EvOp (OInsert (fst p) (snd p))) ins ++ [EvCrash None 0 j []]) = Some s' /\
      t_cur (s_tab s') = n.
  Proof.
    intros lf evs s n ins j F E Hn Hu. destruct (run_rel lf evs F) as (s0 & a & E0 & R & _). rewrite E in E0. injection E0 as <-.
    rewrite (run_app _ _ _ _ E).
    destruct (rel_op kcmp TK lf s a (OCommit n false) R) as (s1 & E1 & R1). { simpl. unfold u32max. lia. }
    cbn [sys_run]. rewrite E1. cbn [sys_step step] in E1. unfold t_commit in E1.
    destruct (N.eqb_spec n u32max); [unfold u32max in *; lia|]. destruct (N.leb_spec n (t_cur (s_tab s))); [lia|]. simpl in E1.
    injection E1 as <-.
    destruct (inserts_run lf ins _ _ R1) as (s2 & a2 & E2 & R2 & W1 & W2); [constructor|].
    rewrite sys_run_app, E2. cbn [sys_run sys_step op_effs]. rewrite firstn_nil. cbn [apply_effs fold_left].
    destruct (inv_disk kcmp TK _ _ j (rl_inv _ _ _ R2)) as (rc & Hr & D & _).
    simpl reopen. unfold open_sys, crash_disk. simpl fst. simpl snd.
    destruct (open_ok kcmp TK lf _ _ _ _ D) as (t & es & Eo & _ & Ec & _). rewrite Eo.
    eexists. split; [reflexivity|]. simpl. rewrite Ec.
    destruct D as (bs & _ & _ & _ & -> & _). rewrite last_cmd_app, no_cmd_last; auto. rewrite W1. simpl.
    rewrite app_assoc, last_cmd_app. auto.
  Qed.
End P.

Lemma C05_refuted_proof : exists (evs : list (@event N N)) s s' n,
  Forall uevent evs /\ run N.compare 4 (evs ++ [EvOp (OCommit n true)]) = Some s /\ t_cur (s_tab s) = n /\
  run N.compare 4 (evs ++ [EvOp (OCommit n true); EvCrash None 0 0 []]) = Some s' /\ t_cur (s_tab s') < n.
Proof.
  exists [EvOp (OInsert 1 1)], (match run N.compare 4 [EvOp (OInsert 1 1); EvOp (OCommit 5 true)] with Some s => s | None => mk_sys (mk_table 0 0 0 [] [] []) (mk_world [] [] []) end).
  eexists. exists 5. split; [repeat constructor|]. split; [vm_compute; reflexivity|]. split; [vm_compute; reflexivity|].
  split; [vm_compute; reflexivity|]. vm_compute. auto.
Qed.

Lemma C06_refuted_proof : exists (ops1 ops2 : list (@op N N)) o m s1 s2 s3,
  Forall ucall ops1 /\ ucall o /\ Forall ucall ops2 /\
  after N.compare 2 ops1 = Some s1 /\
  fine_crash N.compare 2 s1 o m = Some s2 /\
  run_from N.compare 2 s2 (map EvOp ops2 ++ [EvCrash None 0 0 []]) = Some s3 /\
  ~ NoDup (flat_map (fun b => map fst (b_entries b)) (t_blocks (s_tab s2))) /\
  (forall a, spec_run (map EvOp (ops1 ++ [o] ++ ops2)) (@a_init N N) a -> a_find N.eqb a 2 4 = Some 22) /\
  find N.compare (s_tab s3) 2 4 = None.
Proof.
  exists [OInsert 0 10; OCommit 1 true; OInsert 1 11; OCommit 2 true; OInsert 2 22], [OInsert 3 13; OCommit 4 true], (OCommit 3 true), 5%nat.
  eexists; eexists; eexists.
  split; [repeat constructor; simpl; lia|]. split; [simpl; lia|]. split; [repeat constructor; simpl; lia|].
  split; [vm_compute; reflexivity|]. split; [vm_compute; reflexivity|]. split; [vm_compute; reflexivity|].
  split; [|split].
  - simpl. intros H. inversion H as [|? ? H1 H2]; subst. inversion H2 as [|? ? H3 H4]; subst. apply H3. simpl. auto.
  - intros a H. apply spec_ops_run in H. subst. reflexivity.
  - reflexivity.
Qed.
