(** Which version a table reports after process deaths, for C69. *)
Require Import List Sorted Arith NArith Lia Bool.
Require Import Verif.OrdLib Verif.DbModel Verif.DbSpec Verif.DbBlockProofs Verif.DbCrashProofs Verif.DbRefineProofs Verif.DbPropsProofs Verif.MdbModel Verif.MdbSpec Verif.MdbProofs.
Import ListNotations.
Open Scope N_scope.

Section T.
  Context {K V : Type} (kcmp : K -> K -> comparison).
  Hypothesis TK : TotalCmp kcmp.
  Notation table := (@table K V).
  Notation eff := (@eff K V).
  Notation logrec := (@logrec K V).
  Notation world := (@world K V).

  (** the log says version [n] *)
  Definition says (n : N) (log : list logrec) : Prop := forall c, last_cmd c log = n.
  Lemma says_app n log l : says n log -> no_cmd l -> says n (log ++ l).
  Proof. intros S H c. rewrite last_cmd_app, S. rewrite <- (firstn_all l). apply no_cmd_last. auto. Qed.
  Lemma says_revert n log : says n (log ++ [LRevert n]).
  Proof. intros c. rewrite last_cmd_app. reflexivity. Qed.
  Lemma no_cmd_firstn (l : list logrec) j : no_cmd l -> no_cmd (firstn j l).
  Proof. unfold no_cmd. apply Forall_firstn. Qed.

  Definition rev_effs (n : N) (es : list eff) : Prop := exists e1 e2, es = e1 ++ [EAppend (LRevert n); EFlush] ++ e2 /\ Forall file_eff e1 /\ Forall file_eff e2.
  Lemma firstn_files (l : list eff) j : Forall file_eff l -> Forall file_eff (firstn j l).
  Proof. apply Forall_firstn. Qed.
  Definition wsays (n : N) (w : world) : Prop := says n (w_log w) /\ (no_cmd (w_pend w) \/ exists l, no_cmd l /\ w_pend w = l ++ [LRevert n]).
  Lemma wsays_files n w es : wsays n w -> Forall file_eff es -> wsays n (apply_effs w es).
  Proof. intros (A & B) F. destruct (file_effs_log w es F) as (L & P). split; [rewrite L|rewrite P]; auto. Qed.
  Lemma rev_effs_says n es w j : rev_effs n es -> says n (w_log w) -> no_cmd (w_pend w) -> wsays n (apply_effs w (firstn j es)).
  Proof.
    intros (e1 & e2 & -> & F1 & F2) S P. rewrite firstn_app, apply_effs_app.
    destruct (file_effs_log w (firstn j e1) (firstn_files _ _ F1)) as (L1 & P1).
    assert (W : wsays n (apply_effs w (firstn j e1))) by (split; [rewrite L1; auto|rewrite P1; auto]).
    destruct (j - length e1)%nat as [|[|k]]; simpl; [exact W| |].
    - split; simpl; [rewrite L1; auto|]. right. exists (w_pend w). rewrite P1. auto.
    - apply wsays_files; [|apply firstn_files; auto]. split; simpl; [|left; constructor].
      rewrite L1, P1, app_assoc. apply says_revert.
  Qed.
  Lemma wsays_crash n w j : wsays n w -> says n (snd (crash_disk w j)).
  Proof.
    intros (A & B). unfold crash_disk. simpl. destruct B as [B|(l & B & ->)].
    - apply says_app; auto. apply no_cmd_firstn; auto.
    - rewrite firstn_app. destruct (j - length l)%nat; simpl.
      + rewrite app_nil_r. apply says_app; auto. apply no_cmd_firstn; auto.
      + rewrite firstn_nil, app_assoc. apply says_revert.
  Qed.
  Lemma revert_effs n t t' es : t_revert kcmp n t = Some (t', es) -> rev_effs n es.
  Proof.
    unfold t_revert. destruct (t_cur t <? n); [discriminate|]. destruct (revert_blocks kcmp n (t_blocks t)) as (bs, ebs) eqn:E. intros H. injection H as _ <-.
    exists [], ebs. split; auto. split; [constructor|]. pose proof (revert_file_effs kcmp n (t_blocks t)) as F. rewrite E in F. exact F.
  Qed.
  Lemma load_effs (bs : list (@block K V)) : forall p, Forall file_eff (snd (load_blocks p bs)).
  Proof.
    induction bs as [|b bs IH]; intros p; simpl; [constructor|]. specialize (IH (Some (b_max b))). destruct (load_blocks (Some (b_max b)) bs) as (l, es). simpl in IH.
    destruct (match p with None => true | Some pm => pm <? b_min b end); simpl; auto. constructor; simpl; auto.
  Qed.
  Lemma rewrite_effs lf fuel : forall next (bs : list (@block K V)) r, check_rewrite kcmp fuel lf next bs = Some r -> Forall file_eff (snd r).
  Proof.
    induction fuel as [|fuel IH]; intros next bs r; simpl; destruct (Nat.leb lf 1); try (intros [= <-]; constructor).
    - destruct (select lf [] [] 0 bs) as [(((pre, sel), post), level)|]; [discriminate|intros [= <-]; constructor].
    - destruct (select lf [] [] 0 bs) as [(((pre, sel), post), level)|]; [|intros [= <-]; constructor].
      destruct (rewrite_blocks kcmp next (level + 1) sel) as [nb|]; [|discriminate].
      destruct (check_rewrite kcmp fuel lf (next + 1) (pre ++ nb :: post)) as [((bs2, next2), es)|] eqn:E; [|discriminate].
      intros [= <-]. simpl. constructor; [exact Logic.I|]. exact (IH _ _ _ E).
  Qed.
  Lemma open_effs lf files log t es n : t_open kcmp lf files log = Some (t, es) -> says n log -> rev_effs n es.
  Proof.
    intros H S. unfold t_open in H. destruct (load_blocks None (sort_blocks files)) as (bs, e1) eqn:E1.
    pose proof (load_effs (sort_blocks files) None) as F1. rewrite E1 in F1. simpl in F1.
    destruct (replay_spec (last_version bs) log) as (R1 & _). rewrite R1, S in H.
    destruct (t_revert kcmp n _) as [(t2, e2)|] eqn:E2; [|discriminate].
    unfold t_check_rewrite in H. destruct (check_rewrite kcmp _ lf (t_next_id t2) (t_blocks t2)) as [((bs3, n3), e3)|] eqn:E3; [|discriminate].
    injection H as _ <-. destruct (revert_effs _ _ _ _ E2) as (a & b & -> & Fa & Fb). apply rewrite_effs in E3. simpl in E3.
    exists (e1 ++ a), (b ++ e3). split; [rewrite <- !app_assoc; reflexivity|]. split; apply Forall_app; auto.
  Qed.

  Lemma reopen_says lf n opens : forall d C rc, disk_ok kcmp (fst d) (snd d) C rc -> says n (snd d) ->
    exists s, reopen kcmp lf d opens = Some s /\ t_cur (s_tab s) = n /\ says n (w_log (s_world s)) /\ no_cmd (w_pend (s_world s)).
  Proof.
    induction opens as [|(m, j) opens IH]; intros (fs, log) C rc D S; simpl in D, S.
    - destruct (open_ok kcmp TK lf _ _ _ _ D) as (t & es & E & I & Ec & HC & _). simpl. unfold open_sys. simpl. rewrite E.
      eexists. split; [reflexivity|]. simpl. pose proof (open_effs _ _ _ _ _ _ E S) as (e1 & e2 & -> & F1 & F2).
      split. { destruct D as (bs & _ & _ & _ & -> & _). rewrite Ec. apply S. }
      rewrite !apply_effs_app.
      set (w1 := apply_effs (mk_world fs log []) e1). destruct (file_effs_log (mk_world fs log []) e1 F1) as (L1 & P1). fold w1 in L1, P1. simpl in L1, P1.
      set (w2 := apply_effs w1 _). destruct (file_effs_log w2 e2 F2) as (L2 & P2). rewrite L2, P2. unfold w2. simpl. rewrite L1, P1. simpl. split; [apply says_revert|constructor].
    - destruct (open_ok kcmp TK lf _ _ _ _ D) as (t & es & E & I & Ec & HC & St). simpl. rewrite E.
      destruct (St m j) as (rc' & Hr & D'). apply (IH _ _ _ D').
      apply wsays_crash. apply rev_effs_says; [eapply open_effs; eauto|auto|constructor].
  Qed.

  (** the table is at version [n] and its log says so *)
  Definition fixed (n : N) (s : @sys K V) : Prop := t_cur (s_tab s) = n /\ says n (w_log (s_world s)) /\ no_cmd (w_pend (s_world s)).
  Lemma fixed_crash lf n s a o m j opens s' : rel kcmp s a -> fixed n s -> (o = None \/ o = Some (ORevert n)) ->
    sys_step kcmp lf s (EvCrash o m j opens) = Some s' -> fixed n s'.
  Proof.
    intros R (F1 & F2 & F3) Ho E. cbn [sys_step] in E. pose proof (rl_inv _ _ _ R) as I.
    assert (X : exists C rc, disk_ok kcmp (fst (crash_disk (apply_effs (s_world s) (firstn m (op_effs kcmp lf o (s_tab s)))) j))
                  (snd (crash_disk (apply_effs (s_world s) (firstn m (op_effs kcmp lf o (s_tab s)))) j)) C rc).
    { destruct Ho as [-> | ->].
      - simpl op_effs. rewrite firstn_nil. destruct (inv_disk kcmp TK _ _ j I) as (rc & _ & D & _). eauto.
      - pose proof (op_ok_steps kcmp TK lf (ORevert n) _ _ I Logic.I) as H. unfold op_effs. cbn [step] in *.
        destruct (t_revert kcmp n (s_tab s)) as [(t', es)|] eqn:Er.
        + destruct H as (_ & H). destruct (H m j) as [(rc & _ & D)|(rc & _ & D)]; eauto.
        + rewrite firstn_nil. destruct (inv_disk kcmp TK _ _ j I) as (rc & _ & D & _). eauto. }
    destruct X as (C & rc & D).
    assert (Y : says n (snd (crash_disk (apply_effs (s_world s) (firstn m (op_effs kcmp lf o (s_tab s)))) j))).
    { apply wsays_crash. destruct Ho as [-> | ->].
      - simpl op_effs. rewrite firstn_nil. split; auto.
      - unfold op_effs. cbn [step]. destruct (t_revert kcmp n (s_tab s)) as [(t', es)|] eqn:Er.
        + apply rev_effs_says; auto. eapply revert_effs; eauto.
        + rewrite firstn_nil. split; auto. }
    destruct (reopen_says lf n opens _ _ _ D Y) as (s2 & E2 & H). rewrite E in E2. injection E2 as <-. exact H.
  Qed.
  Lemma fixed_insert lf n s k v s' : fixed n s -> sys_step kcmp lf s (EvOp (OInsert k v)) = Some s' -> fixed n s'.
  Proof.
    intros (F1 & F2 & F3) E. simpl in E. injection E as <-. split; simpl; auto. split; auto. apply Forall_app. split; auto. constructor; auto. eauto.
  Qed.
  Lemma fixed_commit lf n s s' : t_cur (s_tab s) < n -> n < 4294967295 ->
    sys_step kcmp lf s (EvOp (OCommit n false)) = Some s' -> fixed n s'.
  Proof.
    intros H1 H2 E. cbn [sys_step step] in E. unfold t_commit in E.
    destruct (N.eqb_spec n u32max); [unfold u32max in *; lia|]. destruct (N.leb_spec n (t_cur (s_tab s))); [lia|]. simpl in E.
    injection E as <-. split; simpl; auto. split; [|constructor]. intros c. rewrite app_assoc, last_cmd_app. reflexivity.
  Qed.
End T.

Section D.
  Context {K V : Type}.
  Notation tab := (@tab K V).
  Notation dbase := (@dbase K V).
  Notation spec := (@spec K V).

  (** The table is at version [n] whatever happens next: its log says so, or it has a write of version [n - 1]. *)
  Definition firm (n : N) (x : tab) : Prop :=
    exists a, tr x a /\ a_cur a = n /\ (fixed n (snd x) \/ exists w, In w (a_writes a) /\ wver w + 1 = n).

  Lemma firm_crash n x o m j opens : firm n x -> (o = None \/ o = Some (ORevert n)) ->
    exists y, tab_event (EvCrash o m j opens) x = Some y /\ firm n y /\ fst y = fst x.
  Proof.
    intros (a & T & C & H) Ho. destruct (tr_event x a (EvCrash o m j opens) T) as (y & a' & E & T' & S & F).
    { destruct Ho as [-> | ->]; exact Logic.I. }
    exists y. split; auto. split; auto. destruct H as [H|(w & W1 & W2)].
    - exists a'. split; auto. unfold tab_event in E. destruct (sys_step _ _ (snd x) _) as [s'|] eqn:Es; [|discriminate]. injection E as <-. simpl in *.
      destruct T as (TK & R). pose proof (fixed_crash _ TK _ _ _ _ _ _ _ _ _ R H Ho Es) as FX. split; [|left; exact FX].
      destruct T' as (_ & R'). rewrite <- (rl_cur _ _ _ R'). apply FX.
    - assert (X : exists b, a_survives b a' /\ a_cur b = n /\ a_writes b = a_writes a \/ a_survives b a' /\ a_cur b = n /\ a_writes b = drop_from n (a_writes a)).
      { destruct Ho as [-> | ->]; simpl in S.
        - exists a. left. auto.
        - destruct S as [S|S]; [exists a; left; auto|]. unfold a_revert in S. rewrite C, N.ltb_irrefl in S. eexists. right. split; [exact S|]. auto. }
      assert (W : In w (drop_from n (a_writes a))). { apply filter_In. split; auto. apply N.ltb_lt. lia. }
      exists a'. split; auto.
      assert (G : a_writes a' = drop_from n (a_writes a) /\ a_cur a' <= n /\ Forall (fun w => wver w < a_cur a') (a_writes a')).
      { destruct X as (b & [((S1 & S2 & S3) & B1 & B2)|((S1 & S2 & S3) & B1 & B2)]); rewrite B1, B2 in *; auto.
        rewrite drop_drop in S1 by lia. auto. }
      destruct G as (G1 & G2 & G3). rewrite <- G1 in W. rewrite Forall_forall in G3. specialize (G3 _ W). split; [lia|]. right. exists w. auto.
  Qed.
  Lemma firm_insert n x k v : firm n x -> exists y, tab_event (EvOp (OInsert k v)) x = Some y /\ firm n y /\ fst y = fst x.
  Proof.
    intros (a & T & C & H). destruct (tr_op x a (OInsert k v) T Logic.I) as (y & E & T' & F). exists y. split; auto. split; auto.
    exists (spec_op (OInsert k v) a). split; auto. split; auto. destruct H as [H|(w & W1 & W2)].
    - left. unfold tab_event in E. destruct (sys_step _ _ (snd x) _) as [s'|] eqn:Es; [|discriminate]. injection E as <-. simpl. eapply fixed_insert; eauto.
    - right. exists w. split; auto. simpl. apply in_or_app. auto.
  Qed.
  Lemma firm_revert n x : firm n x -> exists y, tab_event (EvOp (ORevert n)) x = Some y /\ version_of y = n /\ fst y = fst x.
  Proof.
    intros (a & T & C & _). destruct (tr_op x a (ORevert n) T Logic.I) as (y & E & T' & F). exists y. split; auto. split; auto.
    rewrite (tr_cur _ _ T'). simpl. unfold a_revert. rewrite C, N.ltb_irrefl. auto.
  Qed.
  Lemma firm_cur n x : firm n x -> version_of x = n.
  Proof. intros (a & T & C & _). rewrite (tr_cur _ _ T). auto. Qed.

  Lemma min_all n : n <= u32max -> forall d : dbase, d <> [] -> forall i, allp (fun _ x => version_of x = n) i d -> min_version d = n.
  Proof.
    intros U d Hd i A. destruct d as [|x d]; [congruence|]. unfold min_version.
    assert (G : forall (l : dbase) m i, n <= m -> allp (fun _ x => version_of x = n) i l -> fold_left (fun m x => N.min (version_of x) m) l m = match l with [] => m | _ => n end).
    { induction l as [|y l IH]; intros m k Hm B; simpl; auto. destruct B as (B1 & B2). rewrite B1, N.min_l by lia. rewrite (IH n (Datatypes.S k)); auto; [destruct l; auto|lia]. }
    rewrite (G _ _ i); auto.
  Qed.
  Lemma start_firm n rs : n <= u32max -> forall d : dbase, d <> [] -> allp (fun _ => firm n) 0 d ->
    exists d', start rs d = Some d' /\ allp (fun _ x => version_of x = n) 0 d' /\ map fst d' = map fst d.
  Proof.
    intros U. induction rs as [|ds rs IH]; intros d Hd A; simpl.
    - assert (M : min_version d = n). { apply (min_all n U d Hd 0). revert A. apply allp_impl. intros j x _. apply firm_cur. }
      unfold recover, db_revert. rewrite M.
      destruct (each_ok (fun _ x => tab_event (EvOp (ORevert n)) x) (fun _ => firm n) (fun _ x => version_of x = n) d 0) as (d' & E & B & F); auto.
      { intros j x F. apply firm_revert; auto. }
      eauto.
    - assert (M : min_version d = n). { apply (min_all n U d Hd 0). revert A. apply allp_impl. intros j x _. apply firm_cur. }
      unfold die. rewrite M.
      destruct (each_ok (fun i x => let '(m, j, opens) := nth i ds (0%nat, 0%nat, []) in tab_event (EvCrash (Some (ORevert n)) m j opens) x) (fun _ => firm n) (fun _ => firm n) d 0) as (d1 & E & B & F); auto.
      { intros j x Fx. destruct (nth j ds _) as ((m, q), opens). apply firm_crash; auto. }
      rewrite E. destruct (IH d1) as (d' & X1 & X2 & X3); auto. { intros ->. destruct d; [congruence|discriminate F]. }
      exists d'. split; auto. split; auto. congruence.
  Qed.

  Lemma commit_firm (D : @dspec K V) n : n < 4294967295 -> d_cur D < n ->
    forall d i fls, allp (pr D) i d ->
    (forall j, (j < length d)%nat -> nth j fls false = true -> exists w, In w (writes_to (i + j)%nat (d_writes D)) /\ wver w + 1 = n) ->
    exists d', db_commit n fls d = Some d' /\ allp (fun _ => firm n) i d' /\ map fst d' = map fst d.
  Proof.
    intros U Hn. induction d as [|x d IH]; intros i fls A W; simpl.
    - exists []. auto.
    - destruct A as (T & A). set (fl := match fls with f :: _ => f | [] => false end).
      destruct (tr_op _ _ (OCommit n fl) T) as (y & E & T' & F). { simpl. unfold u32max. lia. }
      destruct (IH (Datatypes.S i) (tl fls) A) as (d' & E' & A' & F').
      { intros j Hj Hf. replace (Datatypes.S i + j)%nat with (i + Datatypes.S j)%nat by lia. apply W; [simpl; lia|]. destruct fls as [|f fls]; simpl in *; auto. destruct j; discriminate. }
      rewrite E.
      assert (HC : spec_op (OCommit n fl) (mk_spec (d_cur D) (writes_to i (d_writes D))) = mk_spec n (writes_to i (d_writes D))).
      { simpl. unfold a_commit. simpl. destruct (N.eqb_spec n 4294967295); [lia|]. destruct (N.leb_spec n (d_cur D)); [lia|]. auto. }
      rewrite HC in T'.
      destruct (t_commit (c_cmp (fst x)) (c_lf (fst x)) n fl (s_tab (snd x))) eqn:Ec.
      + rewrite E'. exists (y :: d'). split; auto. split; [|simpl; congruence]. split; auto.
        exists (mk_spec n (writes_to i (d_writes D))). split; auto. split; auto. destruct fl eqn:Ef.
        * right. simpl. destruct (W 0%nat) as (w & W1 & W2); [simpl; lia| |]. { subst fl. destruct fls; simpl; auto. }
          rewrite Nat.add_0_r in W1. eauto.
        * left. unfold tab_event in E. destruct (sys_step (c_cmp (fst x)) (c_lf (fst x)) (snd x) (EvOp (OCommit n false))) as [s'|] eqn:Es; [|discriminate]. injection E as <-. simpl.
          destruct T as (TK & R). eapply fixed_commit; [|exact U|exact Es]. rewrite (rl_cur _ _ _ R). exact Hn.
      + exfalso. unfold tab_event in E. simpl in E. rewrite Ec in E. injection E as <-. destruct T as (_ & R). destruct T' as (_ & R').
        pose proof (rl_cur _ _ _ R) as C1. pose proof (rl_cur _ _ _ R') as C2. simpl in *. lia.
  Qed.

  Lemma inserts_firm n (ins : list (nat * (K * V))) : forall d : dbase, allp (fun _ => firm n) 0 d ->
    exists d', db_steps d (map (fun p => ECall (DInsert (fst p) (fst (snd p)) (snd (snd p)))) ins) = Some d' /\ allp (fun _ => firm n) 0 d' /\ map fst d' = map fst d.
  Proof.
    induction ins as [|(i, (k, v)) ins IH]; intros d A; simpl.
    - eauto.
    - destruct (each_ok (fun j x => if Nat.eqb j i then tab_event (EvOp (OInsert k v)) x else Some x) (fun _ => firm n) (fun _ => firm n) d 0) as (d1 & E & B & F); auto.
      { intros j x Fx. destruct (Nat.eqb j i); [apply firm_insert; auto|eauto]. }
      unfold db_insert. rewrite E. destruct (IH d1 B) as (d' & E' & B' & F'). exists d'. split; auto. split; auto. congruence.
  Qed.
  Lemma die_firm n ds (d : dbase) : allp (fun _ => firm n) 0 d ->
    exists d', die (part None) ds d = Some d' /\ allp (fun _ => firm n) 0 d' /\ map fst d' = map fst d.
  Proof.
    intros A. unfold die. apply (each_ok _ (fun _ => firm n)); auto. intros j x Fx. destruct (nth j ds _) as ((m, q), opens). apply firm_crash; auto.
  Qed.
  Lemma db_steps_app (d : dbase) e1 e2 : db_steps d (e1 ++ e2) = match db_steps d e1 with Some d' => db_steps d' e2 | None => None end.
  Proof. revert d. induction e1 as [|ev e1 IH]; intros d; simpl; auto. destruct (db_step d ev); auto. Qed.
End D.
