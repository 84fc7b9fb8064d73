(** Proofs about the choice of the peak *)
Require Import List Arith NArith Bool Lia Sorting.Permutation Sorting.Sorted.
From Verif Require Import OrdLib BytesLib EngineModel EngineUpper ForkModel ForkSpec.
Import ListNotations.
Open Scope N_scope.

(** ** Small things *)
Lemma find_fork_some fs h f : find_fork fs h = Some f -> In f fs /\ f_hash f = h.
Proof. unfold find_fork. intros H. apply find_some in H as (I & E). destruct (addr_eqb_spec (f_hash f) h); [auto|discriminate]. Qed.
Lemma find_fork_none fs h f : find_fork fs h = None -> In f fs -> f_hash f <> h.
Proof. unfold find_fork. intros H I. pose proof (find_none _ _ H f I) as E. cbn in E. destruct (addr_eqb_spec (f_hash f) h); [discriminate|auto]. Qed.
Lemma nodup_inj fs f g : NoDup (map f_hash fs) -> In f fs -> In g fs -> f_hash f = f_hash g -> f = g.
Proof.
  induction fs as [|x fs IH]; cbn; intros N I J E; [contradiction|]. inversion N as [|? ? NI N']; subst.
  destruct I as [->|I], J as [->|J]; auto.
  - exfalso. apply NI. rewrite E. now apply in_map.
  - exfalso. apply NI. rewrite <- E. now apply in_map.
Qed.
Lemma find_fork_in fs f : NoDup (map f_hash fs) -> In f fs -> find_fork fs (f_hash f) = Some f.
Proof.
  intros N I. destruct (find_fork fs (f_hash f)) as [g|] eqn:E.
  - apply find_fork_some in E as (J & E). f_equal. eapply nodup_inj; eauto.
  - exfalso. eapply find_fork_none in E; eauto.
Qed.
Lemma in_fork_find fs h : (exists f, In f fs /\ f_hash f = h) -> NoDup (map f_hash fs) -> exists f, find_fork fs h = Some f.
Proof. intros (f & I & <-) N. exists f. now apply find_fork_in. Qed.

(** ** Lists of forks that change in place *)
Lemma modify_hash h g fs : (forall f, f_hash f = h -> f_hash (g f) = h) -> map f_hash (modify h g fs) = map f_hash fs.
Proof.
  intros G. unfold modify. rewrite map_map. apply map_ext_in. intros f _. destruct (addr_eqb_spec (f_hash f) h) as [E|]; auto. rewrite G; auto.
Qed.
Lemma modify_forall2 (R : fork -> fork -> Prop) h g fs : (forall f, R f f) -> (forall f, In f fs -> f_hash f = h -> R f (g f)) -> Forall2 R fs (modify h g fs).
Proof.
  intros RR RG. induction fs as [|f fs IH]; cbn; constructor.
  - destruct (addr_eqb_spec (f_hash f) h); [apply RG; cbn; auto|apply RR].
  - apply IH. intros; apply RG; cbn; auto.
Qed.
Lemma in_modify h g fs x : In x (modify h g fs) -> (In x fs /\ f_hash x <> h) \/ exists f, In f fs /\ f_hash f = h /\ x = g f.
Proof.
  unfold modify. intros I. apply in_map_iff in I as (f & E & I). destruct (addr_eqb_spec (f_hash f) h); subst; eauto.
Qed.
Lemma in_modify_same h g fs f : In f fs -> f_hash f = h -> In (g f) (modify h g fs).
Proof. intros I E. unfold modify. apply in_map_iff. exists f. split; auto. destruct (addr_eqb_spec (f_hash f) h); congruence. Qed.
Lemma in_modify_other h g fs f : In f fs -> f_hash f <> h -> In f (modify h g fs).
Proof. intros I E. unfold modify. apply in_map_iff. exists f. split; auto. destruct (addr_eqb_spec (f_hash f) h); congruence. Qed.
Lemma Forall2_in_l {A B} (R : A -> B -> Prop) l l' x : Forall2 R l l' -> In x l -> exists y, In y l' /\ R x y.
Proof. induction 1 as [|? ? ? ? ? ? IH]; cbn; intros []; subst; eauto. destruct IH as (? & ? & ?); eauto. Qed.
Lemma Forall2_in_r {A B} (R : A -> B -> Prop) l l' y : Forall2 R l l' -> In y l' -> exists x, In x l /\ R x y.
Proof. induction 1 as [|? ? ? ? ? ? IH]; cbn; intros []; subst; eauto. destruct IH as (? & ? & ?); eauto. Qed.

Section PROOFS.
  Variables (commit_delay max_history : nat) (max_validators : N) (ok : header -> bool).
  Variables (U : header -> Prop) (rank : bytes -> nat) (root : header) (older : list header).
  Hypothesis NC : no_collision U.
  Hypothesis ACY : no_cycle U rank.
  Hypothesis UR : U root.
  Hypothesis OLD : Forall (fun b => U b /\ h_height b < h_height root) older.

  (** a block that can never be followed *)
  Inductive bad (fs : list fork) : header -> Prop :=
  | bad_proof f : In f fs -> f_invalid f = true -> f_proof f = false -> bad fs (f_block f)
  | bad_ok b : ok b = false -> bad fs b
  | bad_height b p : U p -> h_hash p = h_prev b -> h_height b <> h_height p + 1 -> bad fs b
  | bad_prev b g : In g fs -> f_hash g = h_prev b -> bad fs (f_block g) -> bad fs b.

  Record local (fs : list fork) (f : fork) : Prop := mk_local {
    l_u : U (f_block f);
    l_above : h_height root < f_height f;
    l_first : f_height f = h_height root + 1 -> h_prev (f_block f) = h_hash root;
    l_prev : f_prev f = None \/ f_prev f = Some (h_prev (f_block f)) /\ exists g, In g fs /\ f_hash g = h_prev (f_block f);
    l_validated : f_validated f = true -> ok (f_block f) = true /\ exists p, U p /\ h_hash p = h_prev (f_block f) /\ f_height f = h_height p + 1;
    l_invalid : f_invalid f = true -> bad fs (f_block f);
    l_all : f_all f = true -> f_proof f = true /\ (f_height f = h_height root + 1 \/ exists g, In g fs /\ f_prev f = Some (f_hash g) /\ f_all g = true);
    l_root : f_root f = None \/ f_root f = Some root }.
  (** how a fork may change *)
  Record grows (f f' : fork) : Prop := mk_grows {
    g_block : f_block f' = f_block f;
    g_proof : f_proof f = true -> f_proof f' = true;
    g_invalid : f_invalid f = true -> f_invalid f' = true /\ f_proof f' = f_proof f;
    g_validated : f_validated f = true -> f_validated f' = true;
    g_all : f_all f = true -> f_all f' = true;
    g_prev : f_prev f <> None -> f_prev f' = f_prev f }.
  Lemma grows_refl f : grows f f.
  Proof. constructor; auto. Qed.
  Lemma grows_trans f g h : grows f g -> grows g h -> grows f h.
  Proof.
    intros [A1 A2 A3 A4 A5 A6] [B1 B2 B3 B4 B5 B6]. constructor; auto; try congruence.
    - intros I. destruct (A3 I) as (I' & E). destruct (B3 I') as (I'' & E'). split; congruence.
    - intros P. rewrite <- (A6 P). apply B6. now rewrite A6.
  Qed.
  Lemma grow_all_refl fs : Forall2 grows fs fs.
  Proof. induction fs; constructor; auto using grows_refl. Qed.
  Lemma grow_all_trans fs gs hs : Forall2 grows fs gs -> Forall2 grows gs hs -> Forall2 grows fs hs.
  Proof.
    intros F. revert hs. induction F as [|f g fs gs FG F IH]; intros hs G; inversion G; subst; constructor; eauto using grows_trans.
  Qed.
  Lemma grow_hash fs fs' : Forall2 grows fs fs' -> map f_hash fs' = map f_hash fs.
  Proof. induction 1 as [|? ? ? ? G]; cbn; auto. unfold f_hash at 1 3. rewrite (g_block _ _ G). congruence. Qed.
  Lemma grow_blocks fs fs' : Forall2 grows fs fs' -> map f_block fs' = map f_block fs.
  Proof. induction 1 as [|? ? ? ? G]; cbn; auto. rewrite (g_block _ _ G). congruence. Qed.
  Lemma bad_grows fs fs' b : Forall2 grows fs fs' -> bad fs b -> bad fs' b.
  Proof.
    intros G. induction 1 as [f I V P|b O|b p UP H D|b g I H B IH].
    - destruct (Forall2_in_l _ _ _ _ G I) as (f' & I' & GF). rewrite <- (g_block _ _ GF). destruct (g_invalid _ _ GF V). apply bad_proof; congruence.
    - now apply bad_ok.
    - eapply bad_height; eauto.
    - destruct (Forall2_in_l _ _ _ _ G I) as (g' & I' & GF). eapply (bad_prev _ _ g'); auto; unfold f_hash in *; rewrite (g_block _ _ GF); auto.
  Qed.
  (** a fork stays all right when the others grow, and when it changes only in what does not matter or in ways that are all right *)
  Lemma local_grows fs fs' f f' : Forall2 grows fs fs' -> local fs f -> f_block f' = f_block f ->
    (f_prev f' = f_prev f) -> (f_validated f' = true -> f_validated f = true) -> (f_invalid f' = true -> f_invalid f = true) ->
    (f_all f' = true -> f_all f = true) -> (f_proof f = true -> f_proof f' = true) -> (f_root f' = f_root f) -> local fs' f'.
  Proof.
    intros G L B P V I A PR R. destruct L as [L1 L2 L3 L4 L5 L6 L7 L8]. unfold f_height in *. constructor; unfold f_height; rewrite ?B, ?P, ?R; auto.
    - destruct L4 as [|(E & g & IG & EG)]; [auto|]. right. split; auto. destruct (Forall2_in_l _ _ _ _ G IG) as (g' & IG' & GG). exists g'. split; auto. unfold f_hash. rewrite (g_block _ _ GG). exact EG.
    - intros X. eapply bad_grows; eauto.
    - intros X. destruct (L7 (A X)) as (Q1 & Q2). split; auto. destruct Q2 as [|(g & IG & EG & AG)]; auto. right.
      destruct (Forall2_in_l _ _ _ _ G IG) as (g' & IG' & GG). exists g'. split; auto. unfold f_hash in *. rewrite (g_block _ _ GG). split; auto. now apply (g_all _ _ GG).
  Qed.
  Lemma local_mono fs fs' f : Forall2 grows fs fs' -> local fs f -> local fs' f.
  Proof. intros G L. eapply local_grows; eauto. Qed.

  Definition height_le (a b : fork) : Prop := f_height a <= f_height b.
  (** the forks by themselves *)
  Record tree (fs : list fork) : Prop := mk_tree {
    t_nodup : NoDup (map f_hash fs);
    t_sorted : StronglySorted height_le fs;
    t_local : forall f, In f fs -> local fs f }.
  Lemma sorted_blocks fs fs' : map f_block fs' = map f_block fs -> StronglySorted height_le fs -> StronglySorted height_le fs'.
  Proof.
    revert fs'. induction fs as [|f fs IH]; intros [|f' fs'] E S; try discriminate; constructor; cbn in E; injection E as E1 E2.
    - inversion S; subst; eauto.
    - inversion S as [|? ? S' F]; subst. clear - E1 E2 F. revert fs' E2. induction F as [|g fs H F IH]; intros [|g' fs'] E2; try discriminate; constructor; cbn in E2; injection E2 as E2 E3.
      + unfold height_le, f_height in *. now rewrite E1, E2. + now apply IH.
  Qed.
  Lemma tree_grows fs fs' : tree fs -> Forall2 grows fs fs' -> (forall f, In f fs' -> local fs' f) -> tree fs'.
  Proof.
    intros [T1 T2 T3] G L. constructor; auto.
    - now rewrite (grow_hash _ _ G).
    - exact (sorted_blocks fs fs' (grow_blocks _ _ G) T2).
  Qed.
  (** one fork changes *)
  Lemma tree_modify fs h f f' : tree fs -> find_fork fs h = Some f -> grows f f' -> local (modify h (fun _ => f') fs) f' ->
    tree (modify h (fun _ => f') fs) /\ Forall2 grows fs (modify h (fun _ => f') fs).
  Proof.
    intros T F G L. pose proof (find_fork_some _ _ _ F) as (IF & EF).
    assert (GG : Forall2 grows fs (modify h (fun _ => f') fs)).
    { apply modify_forall2; [apply grows_refl|]. intros x I E. assert (x = f) as ->; [|exact G]. eapply nodup_inj; eauto using t_nodup. congruence. }
    split; auto. eapply tree_grows; eauto. intros x I. apply in_modify in I as [(I & NE)|(y & I & E & ->)]; auto. eapply local_mono; eauto. now apply (t_local _ T).
  Qed.
  Lemma in_modified fs h f f' : tree fs -> find_fork fs h = Some f -> In f' (modify h (fun _ => f') fs).
  Proof. intros T F. pose proof (find_fork_some _ _ _ F) as (IF & EF). exact (in_modify_same h (fun _ => f') fs f IF EF). Qed.

  (** ** The stages that change forks *)
  Lemma lock_prev fs f : tree fs -> In f fs -> match lock fs (f_prev f) with
    | Some g => f_prev f = Some (h_prev (f_block f)) /\ In g fs /\ f_hash g = h_prev (f_block f)
    | None => f_prev f = None end.
  Proof.
    intros T I. destruct (l_prev _ _ (t_local _ T f I)) as [E|(E & g & IG & EG)]; rewrite E; cbn [lock]; auto.
    rewrite <- EG. rewrite (find_fork_in _ _ (t_nodup _ T) IG). auto.
  Qed.
  Lemma connect_ok connected fs h : tree fs -> tree (connect root connected fs h) /\ Forall2 grows fs (connect root connected fs h).
  Proof.
    intros T. unfold connect. destruct (find_fork fs h) as [f|] eqn:F; [|split; auto using grow_all_refl].
    pose proof (find_fork_some _ _ _ F) as (IF & EF). pose proof (t_local _ T f IF) as L.
    destruct (h_height (f_block f) =? h_height root + 1).
    - assert (G : grows f (mk_fork (f_block f) (f_prev f) (f_invalid f) (f_validated f) (f_connected f || connected (f_block f)) (f_proof f) (f_all f) (f_votes f) (f_total f) (f_root f) (f_validators f))) by (constructor; auto).
      refine (tree_modify fs h f _ T F G _). eapply local_grows; [|exact L|..]; auto.
      apply modify_forall2; [apply grows_refl|]. intros x I E. assert (x = f) as ->; auto. eapply nodup_inj; eauto using t_nodup. congruence.
    - set (p := match lock fs (f_prev f) with Some _ => f_prev f | None => match find_fork fs (h_prev (f_block f)) with Some _ => Some (h_prev (f_block f)) | None => None end end).
      assert (PP : match lock fs p with Some g => p = Some (h_prev (f_block f)) /\ In g fs /\ f_hash g = h_prev (f_block f) | None => p = None end /\ (f_prev f <> None -> p = f_prev f)).
      { pose proof (lock_prev _ _ T IF) as LP. unfold p. destruct (lock fs (f_prev f)) as [g|] eqn:LF.
        - rewrite LF. auto. - rewrite LP. split; [|congruence]. destruct (find_fork fs (h_prev (f_block f))) as [g|] eqn:FP; cbn [lock]; auto. rewrite FP. apply find_fork_some in FP as (? & ?). auto. }
      destruct PP as (PP & PS). clearbody p. destruct (lock fs p) as [g|] eqn:LG.
      + destruct PP as (-> & IG & EG).
        match goal with |- tree (modify h (fun _ => ?x) fs) /\ _ => set (f' := x) end.
        assert (G : grows f f') by (constructor; cbn; auto; intros ->; split; auto using orb_true_r).
        refine (tree_modify fs h f f' T F G _).
        assert (GG : Forall2 grows fs (modify h (fun _ => f') fs)) by (apply modify_forall2; [apply grows_refl|]; intros x I E; assert (x = f) as ->; auto; eapply nodup_inj; eauto using t_nodup; congruence).
        destruct L as [L1 L2 L3 L4 L5 L6 L7 L8].
        assert (PRV : exists g', In g' (modify h (fun _ => f') fs) /\ f_hash g' = h_prev (f_block f) /\ grows g g').
        { destruct (Forall2_in_l _ _ _ _ GG IG) as (g' & IG' & GG'). exists g'. split; auto. split; auto. unfold f_hash. rewrite (g_block _ _ GG'). exact EG. }
        destruct PRV as (g' & IG' & EG' & GG').
        constructor; cbn; auto.
        * right. split; auto. eauto.
        * intros X. apply orb_true_iff in X as [X|X].
          -- eapply (bad_prev _ _ g'); auto. rewrite (g_block _ _ GG'). eapply bad_grows; eauto. now apply (l_invalid _ _ (t_local _ T g IG)).
          -- eapply bad_grows; eauto.
        * intros X. destruct (L7 X) as (Q1 & [Q2|(y & IY & EY & AY)]); split; auto. right.
          destruct (Forall2_in_l _ _ _ _ GG IY) as (y' & IY' & GY'). exists y'. split; auto. unfold f_hash in *. rewrite (g_block _ _ GY'). split; [|now apply (g_all _ _ GY')].
          rewrite <- EY. apply PS. congruence.
      + subst p.
        match goal with |- tree (modify h (fun _ => ?x) fs) /\ _ => set (f' := x) end.
        assert (FN : f_prev f = None) by (destruct (f_prev f); auto; symmetry; apply PS; discriminate).
        assert (G : grows f f') by (constructor; cbn; auto).
        refine (tree_modify fs h f f' T F G _). eapply local_grows; [|exact L|..]; auto.
        apply modify_forall2; [apply grows_refl|]. intros x I E. assert (x = f) as ->; auto. eapply nodup_inj; eauto using t_nodup. congruence.
  Qed.
  (** after [connect], a fork that has its predecessor in the tree knows it *)
  Definition linked (fs : list fork) (f : fork) : Prop :=
    f_height f = h_height root + 1 \/ forall g, In g fs -> f_hash g = h_prev (f_block f) -> f_prev f = Some (h_prev (f_block f)).
  Lemma linked_grows fs fs' f f' : Forall2 grows fs fs' -> grows f f' -> linked fs f -> linked fs' f'.
  Proof.
    intros G GF [L|L]; unfold linked, f_height in *; rewrite (g_block _ _ GF); [auto|]. right. intros g I E. destruct (Forall2_in_r _ _ _ _ G I) as (g0 & I0 & G0).
    assert (P : f_prev f = Some (h_prev (f_block f))) by (apply (L g0 I0); unfold f_hash in *; now rewrite <- (g_block _ _ G0)). rewrite (g_prev _ _ GF); congruence.
  Qed.
  Lemma connect_linked connected fs h f : tree fs -> In f (connect root connected fs h) -> f_hash f = h -> linked (connect root connected fs h) f.
  Proof.
    intros T. unfold connect. destruct (find_fork fs h) as [f0|] eqn:F; [|intros I E; exfalso; eapply find_fork_none; eauto].
    pose proof (find_fork_some _ _ _ F) as (IF & EF). intros I E. apply in_modify in I as [(_ & NE)|(y & _ & _ & ->)]; [congruence|].
    destruct (h_height (f_block f0) =? h_height root + 1) eqn:HH; [left; unfold f_height; cbn; now apply N.eqb_eq|]. right. intros g I EG.
    set (f' := match lock fs _ with Some _ => _ | None => _ end) in *.
    assert (B : f_block f' = f_block f0) by (unfold f'; destruct (lock fs _); reflexivity). rewrite B in *.
    assert (IG : exists g0, In g0 fs /\ f_hash g0 = h_prev (f_block f0)).
    { apply in_modify in I as [(I & _)|(y2 & I & Y & ->)]; [eauto|]. exists f0. split; auto. rewrite <- EG. unfold f_hash. now rewrite B. }
    destruct IG as (g0 & I0 & E0). pose proof (lock_prev _ _ T IF) as LP.
    assert (FP : find_fork fs (h_prev (f_block f0)) = Some g0) by (rewrite <- E0; apply find_fork_in; auto using t_nodup).
    unfold f'. destruct (lock fs (f_prev f0)) as [x|] eqn:LK; rewrite ?LK.
    - destruct LP as (LP & _). cbn [f_prev]. exact LP.
    - rewrite FP. cbn [lock]. rewrite FP. reflexivity.
  Qed.
  Lemma connect_all connected L fs : tree fs -> let fs' := fold_left (connect root connected) L fs in
    tree fs' /\ Forall2 grows fs fs' /\ forall f, In f fs' -> In (f_hash f) L -> linked fs' f.
  Proof.
    revert fs. induction L as [|h L IH]; intros fs T; cbn [fold_left]; cbv zeta.
    - split; [auto|]. split; [apply grow_all_refl|]. intros f _ [].
    - destruct (connect_ok connected fs h T) as (T1 & G1). destruct (IH _ T1) as (T2 & G2 & L2). split; [auto|]. split; [eapply grow_all_trans; eauto|].
      intros f I [E|E]; [|auto]. destruct (Forall2_in_r _ _ _ _ G2 I) as (f1 & I1 & GF). eapply linked_grows; eauto. apply connect_linked; auto.
      unfold f_hash in *. now rewrite <- (g_block _ _ GF).
  Qed.
  Lemma map_grows (g : fork -> fork) fs : (forall f, In f fs -> grows f (g f)) -> Forall2 grows fs (map g fs).
  Proof. induction fs as [|f fs IH]; cbn; constructor; auto. Qed.
  Lemma task_grows n check f : grows f (verify_task commit_delay max_history max_validators n check f).
  Proof.
    unfold verify_task. destruct (negb (f_connected f) || f_invalid f || f_proof f) eqn:E; [apply grows_refl|].
    apply orb_false_iff in E as (E & P). apply orb_false_iff in E as (C & I).
    destruct (check (f_block f)) as [[]|]; [| |apply grows_refl]; constructor; cbn; auto; congruence.
  Qed.
  Definition all_linked (fs : list fork) : Prop := forall f, In f fs -> linked fs f.
  Lemma verify_ok connected check n : n_root n = root -> tree (n_forks n) -> let n' := verify_block_proofs commit_delay max_history max_validators connected check n in
    tree (n_forks n') /\ Forall2 grows (n_forks n) (n_forks n') /\ all_linked (n_forks n').
  Proof.
    intros R T. cbv zeta. unfold verify_block_proofs. rewrite R. cbn [n_forks set_forks].
    destruct (connect_all connected (map f_hash (n_forks n)) _ T) as (T1 & G1 & L1). set (fs := fold_left _ _ _) in *. clearbody fs.
    match goal with |- context [map ?v fs] => set (task := v) end.
    assert (G2 : Forall2 grows fs (map task fs)) by (apply map_grows; intros; apply task_grows).
    assert (G : Forall2 grows (n_forks n) (map task fs)) by (eapply grow_all_trans; eauto).
    split; [|split; auto].
    - eapply tree_grows; eauto. intros f' I. apply in_map_iff in I as (f & <- & I). pose proof (t_local _ T1 f I) as L.
      assert (IT : In (task f) (map task fs)) by now apply in_map.
      destruct (f_invalid (task f)) eqn:IV.
      + destruct (f_invalid f) eqn:IV0.
        * assert (E : task f = f) by (unfold task, verify_task; rewrite IV0; now rewrite orb_true_r). rewrite E. exact (local_mono _ _ _ G2 L).
        * destruct L as [L1' L2 L3 L4 L5 L6 L7 L8]. pose proof (task_grows (set_forks n fs) check f) as GF. fold task in GF.
          assert (TF : f_block (task f) = f_block f /\ f_prev (task f) = f_prev f /\ f_validated (task f) = f_validated f /\ f_all (task f) = f_all f /\ f_root (task f) = f_root f /\ f_proof (task f) = false).
          { clear - IV IV0. unfold task, verify_task in *. rewrite IV0 in *. destruct (negb (f_connected f) || false || f_proof f) eqn:C; [congruence|]. apply orb_false_iff in C as (_ & C).
            destruct (check (f_block f)) as [[]|]; cbn in *; try congruence. auto 10. }
          destruct TF as (B & P & V & A & R' & PF).
          assert (LM : local (map task fs) f) by (apply (local_mono _ _ _ G2); constructor; auto).
          destruct LM as [M1 M2 M3 M4 M5 M6 M7 M8]. constructor; unfold f_height in *; rewrite ?B, ?P, ?V, ?A, ?R'; auto.
          -- intros _. rewrite <- B. now apply bad_proof.
          -- intros X. destruct (M7 X) as (Y & _). exfalso. clear - PF GF Y. pose proof (g_proof _ _ GF Y). congruence.
      + apply (local_grows _ _ f (task f) G2 L).
        * now destruct (task_grows (set_forks n fs) check f).
        * unfold task, verify_task. destruct (_ || _); auto. destruct (check _) as [[]|]; auto.
        * unfold task, verify_task. destruct (_ || _); auto. destruct (check _) as [[]|]; auto.
        * congruence.
        * unfold task, verify_task. destruct (_ || _); auto. destruct (check _) as [[]|]; auto.
        * apply (g_proof _ _ (task_grows (set_forks n fs) check f)).
        * unfold task, verify_task. destruct (_ || _); auto. destruct (check _) as [[]|]; auto.
    - intros f' I. apply in_map_iff in I as (f & <- & I). apply (linked_grows _ _ _ _ G2 (task_grows _ _ _)). apply L1; auto.
      rewrite <- (grow_hash _ _ G1). now apply in_map.
  Qed.
  Lemma vote_step best late n v : tree (n_forks n) -> let n' := verify_vote best late n v in
    tree (n_forks n') /\ Forall2 grows (n_forks n) (n_forks n') /\ n_root n' = n_root n /\ n_main n' = n_main n /\ n_stored n' = n_stored n.
  Proof.
    intros T. cbv zeta. unfold verify_vote.
    assert (TRIV : tree (n_forks n) /\ Forall2 grows (n_forks n) (n_forks n) /\ n_root n = n_root n /\ n_main n = n_main n /\ n_stored n = n_stored n) by auto using grow_all_refl.
    destruct (late v); [exact TRIV|]. destruct (find_fork (n_forks n) (v_hash v)) as [f|] eqn:F; [|exact TRIV].
    destruct (f_proof f) eqn:P; [|exact TRIV]. destruct (negb (best (f_block f))); [exact TRIV|]. destruct (lookup (v_key v) (f_validators f)) as [[]|]; [exact TRIV| |exact TRIV].
    cbn [n_forks n_root n_main n_stored]. pose proof (find_fork_some _ _ _ F) as (IF & EF).
    match goal with |- tree (modify _ (fun _ => ?x) _) /\ _ => set (f' := x) end.
    assert (G : grows f f') by (constructor; cbn; auto).
    assert (GG : Forall2 grows (n_forks n) (modify (v_hash v) (fun _ => f') (n_forks n))) by (apply modify_forall2; [apply grows_refl|]; intros x I E; assert (x = f) as ->; auto; eapply nodup_inj; eauto using t_nodup; congruence).
    destruct (tree_modify _ _ f f' T F G) as (T' & _); [|auto].
    apply (local_grows _ _ f f' GG (t_local _ T f IF)); auto.
  Qed.
  Lemma votes_ok best late n : tree (n_forks n) -> let n' := verify_votes best late n in
    tree (n_forks n') /\ Forall2 grows (n_forks n) (n_forks n') /\ n_root n' = n_root n /\ n_main n' = n_main n /\ n_stored n' = n_stored n.
  Proof.
    unfold verify_votes. generalize (n_queue n) as q. intros q.
    set (n0 := mk_node (n_root n) (n_forks n) (n_main n) (n_stored n) [] (n_published n)).
    change (n_forks n) with (n_forks n0). change (n_root n) with (n_root n0). change (n_main n) with (n_main n0). change (n_stored n) with (n_stored n0). clearbody n0.
    revert n0. induction q as [|v q IH]; intros n0 T; cbn [fold_left]; cbv zeta; [auto using grow_all_refl|].
    destruct (vote_step best late n0 v T) as (T1 & G1 & E1 & E2 & E3). destruct (IH _ T1) as (T2 & G2 & E4 & E5 & E6).
    split; [auto|]. split; [eapply grow_all_trans; eauto|]. repeat split; congruence.
  Qed.
  Lemma linked_all_grows fs fs' : Forall2 grows fs fs' -> all_linked fs -> all_linked fs'.
  Proof. intros G L f' I. destruct (Forall2_in_r _ _ _ _ G I) as (f & I0 & GF). eapply linked_grows; eauto. Qed.

  (** ** Candidates *)
  Definition view (fs : list fork) : knowledge := map (fun f => (f_block f, f_proof f, f_votes f)) fs.
  Lemma in_view fs b p v : In (b, p, v) (view fs) <-> exists f, In f fs /\ f_block f = b /\ f_proof f = p /\ f_votes f = v.
  Proof.
    unfold view. rewrite in_map_iff. split.
    - intros (f & E & I). injection E as <- <- <-. eauto. - intros (f & I & <- & <- & <-). eauto.
  Qed.
  Lemma verified_in fs b : verified (view fs) b <-> exists f, In f fs /\ f_block f = b /\ f_proof f = true.
  Proof.
    unfold verified. split.
    - intros (v & I). apply in_view in I as (f & ? & ? & ? & _). eauto. - intros (f & ? & ? & ?). exists (f_votes f). apply in_view. eauto.
  Qed.
  Lemma last_cons {A} (b : A) l p : last (b :: l) p = last l b.
  Proof. revert b. induction l as [|c l IH]; intros b; [reflexivity|]. change (last (b :: c :: l) p) with (last (c :: l) p). rewrite IH. destruct l as [|d l]; [reflexivity|].
    change (last (c :: d :: l) b) with (last (d :: l) b). clear. revert d. induction l as [|e l IH]; intros; [reflexivity|]. exact (IH e). Qed.
  Lemma follows_app p l l' : follows p (l ++ l') <-> follows p l /\ follows (last l p) l'.
  Proof.
    revert p. induction l as [|b l IH]; intros p; cbn [app follows]; [cbn; tauto|]. rewrite IH.
    rewrite last_cons. tauto.
  Qed.
  Lemma follows_height p l : follows p l -> forall b, In b l -> h_height p < h_height b.
  Proof. revert p. induction l as [|c l IH]; cbn; intros p F b I; [contradiction|]. destruct F as (_ & E & F). destruct I as [<-|I]; [lia|]. specialize (IH _ F b I). lia. Qed.
  (** every block of the chain has its predecessor there *)
  Lemma follows_pred p l b : follows p l -> In b l -> exists q, (q = p \/ In q l) /\ h_prev b = h_hash q /\ h_height b = h_height q + 1.
  Proof.
    revert p. induction l as [|c l IH]; cbn; intros p F I; [contradiction|]. destruct F as (E & H & F). destruct I as [<-|I]; [eauto|].
    destruct (IH _ F I) as (q & Q & ? & ?). exists q. split; [|auto]. destruct Q as [->|Q]; auto.
  Qed.
  Lemma candidate_not_bad fs l : tree fs -> candidate ok root (view fs) l -> forall b, bad fs b -> In b l -> False.
  Proof.
    intros T (_ & F & V) b B. rewrite Forall_forall in V.
    assert (UL : forall q, q = root \/ In q l -> U q).
    { intros q [->|I]; auto. destruct (V q I) as (VQ & _). apply verified_in in VQ as (f & I' & <- & _). apply (l_u _ _ (t_local _ T f I')). }
    induction B as [f IF IV PF|b O|b p UP HP HH|b g IG EG B IH]; intros I.
    - destruct (V _ I) as (VF & _). apply verified_in in VF as (f2 & I2 & E2 & P2).
      assert (f2 = f) by (eapply nodup_inj; eauto using t_nodup; unfold f_hash; now rewrite E2). congruence.
    - destruct (V _ I) as (_ & O'). congruence.
    - destruct (follows_pred _ _ _ F I) as (q & IQ & EQ & HQ). assert (p = q) by (apply NC; auto; congruence). congruence.
    - destruct (follows_pred _ _ _ F I) as (q & IQ & EQ & HQ).
      assert (f_block g = q) by (apply NC; [apply (l_u _ _ (t_local _ T g IG))|auto|unfold f_hash in EG; congruence]). subst q.
      destruct IQ as [IQ|IQ]; [|auto]. pose proof (l_above _ _ (t_local _ T g IG)) as AB. unfold f_height in AB. rewrite IQ in AB. lia.
  Qed.
  Lemma candidate_invalid fs l f : tree fs -> candidate ok root (view fs) l -> In f fs -> In (f_block f) l -> f_invalid f = false.
  Proof.
    intros T C I IL. destruct (f_invalid f) eqn:E; auto. exfalso. eapply candidate_not_bad; eauto. now apply (l_invalid _ _ (t_local _ T f I)).
  Qed.
  (** ** Votes along a chain *)
  Lemma follows_nodup p l : follows p l -> (forall b, In b l -> U b) -> NoDup (map h_hash l).
  Proof.
    revert p. induction l as [|b l IH]; cbn [map]; intros p F UL; constructor.
    - intros I. apply in_map_iff in I as (c & E & I). destruct F as (_ & _ & F). pose proof (follows_height _ _ F c I). assert (c = b) by (apply NC; auto; apply UL; cbn; auto). subst. lia.
    - destruct F as (_ & _ & F). apply (IH b); auto. intros; apply UL; cbn; auto.
  Qed.
  Lemma total_app k l l' : total_votes k (l ++ l') = total_votes k l + total_votes k l'.
  Proof. unfold total_votes. induction l as [|b l IH]; cbn [app fold_right]; lia. Qed.
  Lemma total_le k l : NoDup (map h_hash l) -> total_votes k l <= all_votes k.
  Proof.
    revert l. induction k as [|((x, p), v) k IH]; intros l N.
    - cbn. induction l as [|b l IHl]; cbn; [lia|]. inversion N; auto.
    - unfold all_votes in *. cbn [fold_right snd]. specialize (IH l N).
      assert (A : forall l, ~ In (h_hash x) (map h_hash l) -> total_votes ((x, p, v) :: k) l = total_votes k l).
      { clear. unfold total_votes. induction l as [|b l IHl]; cbn [fold_right map In]; auto. intros NI. rewrite IHl by tauto. f_equal. cbn [votes_of]. destruct (addr_eqb_spec (h_hash x) (h_hash b)); [exfalso; apply NI; auto|auto]. }
      enough (total_votes ((x, p, v) :: k) l <= v + total_votes k l) by lia. clear IH.
      induction l as [|b l IHl]; [cbn; lia|]. inversion N as [|? ? NI N']; subst. specialize (IHl N'). 
      change (total_votes ((x, p, v) :: k) (b :: l)) with (votes_of ((x, p, v) :: k) b + total_votes ((x, p, v) :: k) l). change (total_votes k (b :: l)) with (votes_of k b + total_votes k l). cbn [votes_of].
      destruct (addr_eqb_spec (h_hash x) (h_hash b)) as [E|]; [|lia]. rewrite A by (rewrite E; auto). lia.
  Qed.
  Lemma votes_of_view fs f : NoDup (map f_hash fs) -> In f fs -> votes_of (view fs) (f_block f) = f_votes f.
  Proof.
    induction fs as [|g fs IH]; cbn [view map votes_of]; intros N I; [contradiction|]. inversion N as [|? ? NI N']; subst.
    destruct I as [->|I]; [now rewrite addr_eqb_refl|]. destruct (addr_eqb_spec (h_hash (f_block g)) (h_hash (f_block f))) as [E|]; [|now apply IH].
    exfalso. apply NI. unfold f_hash at 1. rewrite E. change (h_hash (f_block f)) with (f_hash f). now apply in_map.
  Qed.
  Lemma candidate_app k l b : l <> [] -> candidate ok root k (l ++ [b]) -> candidate ok root k l.
  Proof.
    intros NE (_ & F & V). apply follows_app in F as (F & _). apply Forall_app in V as (V & _). split; auto.
  Qed.
  Lemma candidate_U fs l : tree fs -> candidate ok root (view fs) l -> forall b, In b l -> U b.
  Proof.
    intros T (_ & _ & V) b I. rewrite Forall_forall in V. destruct (V b I) as (VB & _). apply verified_in in VB as (f & IF & <- & _). apply (l_u _ _ (t_local _ T f IF)).
  Qed.

  (** ** The order of forks *)
  Definition fbeats (g f : fork) : Prop :=
    f_total f < f_total g \/ f_total f = f_total g /\ (f_height f < f_height g \/ f_height f = f_height g /\ bytescmp (f_hash g) (f_hash f) = Lt).
  Lemma fbeats_trans a b c : fbeats a b -> fbeats b c -> fbeats a c.
  Proof.
    unfold fbeats. intros [A|(A & [A'|(A' & A'')])] [B|(B & [B'|(B' & B'')])]; try (left; lia); right; (split; [lia|]); try (left; lia). right. split; [lia|].
    exact (tc_trans bytescmp_total _ _ _ A'' B'').
  Qed.
  Lemma replaces_beats f g : f_hash f <> f_hash g -> if replaces f g root root then fbeats f g else fbeats g f.
  Proof.
    intros NE. unfold replaces, fbeats. rewrite N.ltb_irrefl, andb_false_r, N.leb_refl, orb_true_r.
    destruct (f_total g <? f_total f) eqn:E1; [apply N.ltb_lt in E1; auto|]. apply N.ltb_ge in E1.
    destruct (f_total f =? f_total g) eqn:E2; [apply N.eqb_eq in E2|apply N.eqb_neq in E2; left; lia].
    destruct (f_height g <? f_height f) eqn:E3; [apply N.ltb_lt in E3; auto|]. apply N.ltb_ge in E3.
    destruct (f_height f =? f_height g) eqn:E4; [apply N.eqb_eq in E4|apply N.eqb_neq in E4; right; split; [lia|]; left; lia].
    destruct (bytescmp (f_hash f) (f_hash g)) eqn:E5; [apply (tc_eq bytescmp_total) in E5; contradiction|auto|].
    right. split; [lia|]. right. split; [lia|]. rewrite (tc_opp bytescmp_total), E5. reflexivity.
  Qed.

  (** ** find_best_fork *)
  Lemma get_root n : tree (n_forks n) -> Forall U (n_stored n) -> In root (n_stored n) -> get_header n (h_hash root) = Some root.
  Proof.
    intros T US IR. unfold get_header. destruct (find_fork (n_forks n) (h_hash root)) as [f|] eqn:F.
    - apply find_fork_some in F as (I & E). pose proof (t_local _ T f I) as L. assert (f_block f = root) by (apply NC; auto; apply (l_u _ _ L)). pose proof (l_above _ _ L) as A. unfold f_height in A. rewrite H in A. lia.
    - unfold find_header. destruct (find _ (n_stored n)) as [b|] eqn:FB.
      + apply find_some in FB as (I & E). destruct (addr_eqb_spec (h_hash b) (h_hash root)) as [E'|]; [|discriminate]. f_equal. apply NC; auto. rewrite Forall_forall in US. auto.
      + pose proof (find_none _ _ FB root IR) as X. cbn in X. rewrite addr_eqb_refl in X. discriminate.
  Qed.
  Lemma before_in fs D h R f g : StronglySorted height_le fs -> NoDup (map f_hash fs) -> map f_hash fs = D ++ h :: R -> In f fs -> f_hash f = h -> In g fs -> f_height g < f_height f -> In (f_hash g) D.
  Proof.
    intros S N E IF EF IG LT. apply map_eq_app in E as (f1 & f2 & -> & <- & E2). destruct f2 as [|x f2]; [discriminate|]. cbn in E2. injection E2 as EX _.
    assert (x = f) by (eapply nodup_inj; eauto; [apply in_or_app; cbn; auto|congruence]). subst x.
    apply in_app_or in IG as [IG|[<-|IG]]; [now apply in_map|lia|]. exfalso.
    assert (A : Forall (height_le f) f2). { clear - S. induction f1 as [|y f1 IH]; cbn in S; inversion S; auto. }
    rewrite Forall_forall in A. specialize (A g IG). unfold height_le in A. lia.
  Qed.
  Definition data_right (fs : list fork) (D : list bytes) : Prop := all_votes (view fs) < 2 ^ 32 -> forall l f, candidate ok root (view fs) l -> In f fs -> f_block f = last l root -> In (f_hash f) D ->
    f_all f = true /\ f_root f = Some root /\ f_total f = total_votes (view fs) l.
  Definition eligible (f : fork) : Prop := f_root f = Some root /\ f_all f = true /\ f_invalid f = false.
  Definition best_right (fs : list fork) (D : list bytes) (best : option fork) : Prop :=
    match best with
    | None => forall f, In f fs -> In (f_hash f) D -> ~ eligible f
    | Some g => In g fs /\ In (f_hash g) D /\ eligible g /\ forall f, In f fs -> In (f_hash f) D -> eligible f -> f = g \/ fbeats g f
    end.
  Lemma last_snoc {A} (l : list A) x d : last (l ++ [x]) d = x.
  Proof. induction l as [|y l IH]; [reflexivity|]. cbn [app]. rewrite last_cons. destruct l; [reflexivity|]. cbn [app] in *. rewrite last_cons in *. exact IH. Qed.
  Lemma inherit_block n fs f : f_block (inherit n fs f) = f_block f /\ f_proof (inherit n fs f) = f_proof f /\ f_votes (inherit n fs f) = f_votes f /\
    f_prev (inherit n fs f) = f_prev f /\ f_validated (inherit n fs f) = f_validated f.
  Proof. unfold inherit. destruct (_ =? _); [auto 10|]. destruct (lock fs (f_prev f)); auto 10. Qed.
  Lemma view_modify fs h f f' : NoDup (map f_hash fs) -> find_fork fs h = Some f -> f_block f' = f_block f -> f_proof f' = f_proof f -> f_votes f' = f_votes f ->
    view (modify h (fun _ => f') fs) = view fs.
  Proof.
    intros N F B P V. unfold view, modify. rewrite map_map. apply map_ext_in. intros x I. destruct (addr_eqb_spec (f_hash x) h) as [E|]; auto.
    apply find_fork_some in F as (IF & EF). assert (x = f) by (eapply nodup_inj; eauto; congruence). subst x. now rewrite B, P, V.
  Qed.
  Lemma best_step_ok waiting n fs best D h R : n_root n = root -> Forall U (n_stored n) -> In root (n_stored n) -> tree (n_forks n) ->
    tree fs -> all_linked fs -> map f_hash fs = D ++ h :: R -> data_right fs D -> best_right fs D best ->
    let '(fs', best') := best_step waiting n (fs, best) h in
    tree fs' /\ Forall2 grows fs fs' /\ view fs' = view fs /\ data_right fs' (D ++ [h]) /\ best_right fs' (D ++ [h]) best'.
  Proof.
    intros RT US IR TN T AL E DR BR. unfold best_step. cbn [fst snd].
    destruct (find_fork fs h) as [f|] eqn:F.
    2: { exfalso. assert (I : In h (map f_hash fs)) by (rewrite E; apply in_or_app; cbn; auto). apply in_map_iff in I as (f & EF & I). eapply find_fork_none in F; eauto. }
    pose proof (find_fork_some _ _ _ F) as (IF & EF). pose proof (t_local _ T f IF) as L. rewrite RT.
    assert (AB : (h_height root <? f_height f) = true) by (apply N.ltb_lt; apply (l_above _ _ L)). rewrite AB.
    set (f' := inherit n fs f). destruct (inherit_block n fs f) as (FB & FP & FV & FPR & FVA). fold f' in FB, FP, FV, FPR, FVA.
    assert (LP := lock_prev _ _ T IF). pose proof (t_nodup _ T) as ND.
    assert (NHD : forall g, In g fs -> In (f_hash g) D -> f_hash g <> h).
    { intros g IG ID EG. rewrite E in ND. apply NoDup_remove_2 in ND. apply ND. apply in_or_app. left. now rewrite <- EG. }
    (* what the fork becomes *)
    assert (IB : (f_invalid f' = true -> f_invalid f = true \/ exists g, In g fs /\ f_hash g = h_prev (f_block f) /\ f_invalid g = true) /\
                 (f_invalid f = true -> f_invalid f' = true) /\ (f_all f = true -> f_all f' = true) /\
                 (f_all f' = true -> f_proof f = true /\ (f_height f = h_height root + 1 \/ exists g, In g fs /\ f_prev f = Some (f_hash g) /\ f_all g = true)) /\
                 (f_root f' = None \/ f_root f' = Some root)).
    { unfold f', inherit. rewrite RT. destruct (h_height (f_block f) =? h_height root + 1) eqn:HH; cbn [f_invalid f_all f_root].
      - apply N.eqb_eq in HH. rewrite (l_first _ _ L HH), (get_root n TN US IR). split; [auto|]. split; [auto|]. split; [intros A; now destruct (l_all _ _ L A)|]. split; auto.
      - destruct (lock fs (f_prev f)) as [g|]; cbn [f_invalid f_all f_root].
        + destruct LP as (LP1 & LP2 & LP3). split; [intros X; apply orb_true_iff in X as [X|X]; eauto|]. split; [intros ->; apply orb_true_r|]. split.
          * intros A. destruct (l_all _ _ L A) as (Q & [Q2|(y & IY & EY & AY)]); [apply N.eqb_neq in HH; contradiction|]. rewrite Q.
            assert (y = g) by (eapply nodup_inj; eauto; congruence). subst. rewrite AY. auto.
          * split; [intros A; apply andb_true_iff in A as (A1 & A2); split; auto; right; exists g; split; auto; split; congruence|]. apply (l_root _ _ (t_local _ T g LP2)).
        + split; [auto|]. split; [auto|]. split; [|split; [discriminate|apply (l_root _ _ L)]].
          intros A. destruct (l_all _ _ L A) as (Q & [Q2|(y & IY & EY & AY)]); [apply N.eqb_neq in HH; contradiction|congruence]. }
    destruct IB as (B1 & B2 & B3 & B4 & B5).
    assert (G : grows f f') by (constructor; auto; rewrite ?FP, ?FVA, ?FPR; auto).
    assert (GG : Forall2 grows fs (modify h (fun _ => f') fs)) by (apply modify_forall2; [apply grows_refl|]; intros x I EX; assert (x = f) as ->; auto; eapply nodup_inj; eauto; congruence).
    assert (LL : local (modify h (fun _ => f') fs) f').
    { pose proof (local_mono _ _ _ GG L) as [M1 M2 M3 M4 M5 M6 M7 M8]. constructor; unfold f_height in *; rewrite ?FB, ?FPR, ?FVA; auto.
      - intros X. destruct (B1 X) as [Y|(g & IG & EG & Y)]; auto. destruct (Forall2_in_l _ _ _ _ GG IG) as (g' & IG' & GG').
        eapply (bad_prev _ _ g'); auto; [unfold f_hash in *; now rewrite (g_block _ _ GG')|]. rewrite (g_block _ _ GG'). eapply bad_grows; eauto. now apply (l_invalid _ _ (t_local _ T g IG)).
      - intros X. rewrite FP. destruct (B4 X) as (Q1 & [Q2|(g & IG & EG & AG)]); split; auto. right. destruct (Forall2_in_l _ _ _ _ GG IG) as (g' & IG' & GG').
        exists g'. split; auto. unfold f_hash in *. rewrite (g_block _ _ GG'). split; auto. now apply (g_all _ _ GG'). }
    destruct (tree_modify fs h f f' T F G LL) as (T' & _). pose proof (view_modify fs h f f' ND F FB FP FV) as VW.
    assert (IF' : In f' (modify h (fun _ => f') fs)) by (eapply in_modified; eauto).
    assert (HF' : f_hash f' = h) by (unfold f_hash; rewrite FB; exact EF).
    split; [exact T'|]. split; [exact GG|]. split; [exact VW|]. split.
    - (* data *)
      intros AV l x C IX BX ID. rewrite VW in *. apply in_modify in IX as [(IX & NX)|(y & _ & _ & ->)].
      { apply in_app_or in ID as [ID|[ID|[]]]; [eauto|congruence]. }
      clear ID. pose proof C as (NE & FL & V). destruct (exists_last NE) as (l0 & b & ->). rewrite last_snoc in BX. rewrite FB in BX.
      apply follows_app in FL as (FL0 & FL1). cbn [follows] in FL1. destruct FL1 as (PB & HB & _).
      assert (PF : f_proof f = true).
      { apply Forall_app in V as (_ & V). inversion V as [|? ? (VB & _) _]; subst. apply verified_in in VB as (z & IZ & BZ & PZ). assert (z = f) by (eapply nodup_inj; eauto; unfold f_hash; congruence). congruence. }
      assert (TV : total_votes (view fs) (l0 ++ [b]) = total_votes (view fs) l0 + f_votes f).
      { rewrite total_app. unfold total_votes at 2. cbn [fold_right]. rewrite <- BX, votes_of_view by auto. lia. }
      destruct l0 as [|c l0].
      + cbn [last] in HB, PB. unfold f', inherit. rewrite RT, BX. rewrite HB, N.eqb_refl. cbn [f_all f_root f_total]. rewrite PB, (get_root n TN US IR). split; auto.
      + set (l1 := c :: l0) in *. assert (C0 : candidate ok root (view fs) l1) by (eapply candidate_app; eauto; discriminate).
        set (q := last l1 root) in *. assert (IQ : In q l1) by (unfold q, l1; destruct (@exists_last _ (c :: l0) ltac:(discriminate)) as (w & z & ->); rewrite last_snoc; apply in_or_app; cbn; auto).
        pose proof C0 as (_ & _ & V0). rewrite Forall_forall in V0. destruct (V0 q IQ) as (VQ & _). apply verified_in in VQ as (g & IG & BG & PG).
        assert (HG : f_height g < f_height f) by (unfold f_height; rewrite BG, BX; lia).
        pose proof (before_in _ _ _ _ _ _ (t_sorted _ T) ND E IF EF IG HG) as ID.
        destruct (DR AV l1 g C0 IG ltac:(unfold q in BG; exact BG) ID) as (D1 & D2 & D3).
        assert (HR : h_height root < h_height q) by (eapply follows_height; eauto).
        assert (FPV : f_prev f = Some (f_hash g)).
        { destruct (AL f IF) as [X|X]; [unfold f_height in X; rewrite BX in X; lia|]. rewrite (X g IG); unfold f_hash; rewrite BG, BX; congruence. }
        unfold f', inherit. rewrite RT. rewrite FPV. cbn [lock]. rewrite (find_fork_in _ _ ND IG). rewrite BX, HB.
        destruct (h_height q + 1 =? h_height root + 1) eqn:X; [apply N.eqb_eq in X; lia|]. cbn [f_all f_root f_total]. rewrite D1, D2, D3, PF. split; [auto|]. split; [auto|].
        rewrite TV. apply N.mod_small. rewrite <- TV. eapply N.le_lt_trans; [|exact AV]. apply total_le. eapply (follows_nodup root); [apply C|]. exact (candidate_U _ _ T C).
    - (* best *)
      assert (KEEP : forall x, In x (modify h (fun _ => f') fs) -> In (f_hash x) (D ++ [h]) -> (In x fs /\ In (f_hash x) D) \/ x = f').
      { intros x IX ID. apply in_modify in IX as [(IX & NX)|(y & _ & _ & ->)]; auto. apply in_app_or in ID as [ID|[ID|[]]]; [auto|congruence]. }
      unfold choose. destruct (f_root f') as [rf|] eqn:RF.
      + destruct B5 as [B5|B5]; [discriminate|]. injection B5 as ->. rewrite addr_eqb_refl. cbn [negb andb].
        destruct (f_all f' && negb (f_invalid f')) eqn:EL.
        * apply andb_true_iff in EL as (EL1 & EL2). apply negb_true_iff in EL2. assert (ELF : eligible f') by (split; auto).
          destruct best as [g|].
          -- destruct BR as (IG & IDG & (RG & AG & VG) & BB). rewrite RG. pose proof (replaces_beats f' g) as RB. rewrite HF' in RB. specialize (RB (fun X => NHD g IG IDG (eq_sym X))).
             assert (IG' : In g (modify h (fun _ => f') fs)) by (apply in_modify_other; auto).
             destruct (replaces f' g root root).
             ++ split; [exact IF'|]. split; [rewrite HF'; apply in_or_app; cbn; auto|]. split; [exact ELF|]. intros x IX IDX EX. destruct (KEEP x IX IDX) as [(IX' & IDX')| ->]; [|auto].
                right. destruct (BB x IX' IDX' EX) as [->|B]; [exact RB|eapply fbeats_trans; eauto].
             ++ split; [exact IG'|]. split; [apply in_or_app; auto|]. split; [split; auto|]. intros x IX IDX EX. destruct (KEEP x IX IDX) as [(IX' & IDX')| ->]; auto.
          -- split; [exact IF'|]. split; [rewrite HF'; apply in_or_app; cbn; auto|]. split; [exact ELF|]. intros x IX IDX EX. destruct (KEEP x IX IDX) as [(IX' & IDX')| ->]; auto. exfalso. eapply BR; eauto.
        * assert (NEL : ~ eligible f') by (intros (_ & X1 & X2); rewrite X1, X2 in EL; discriminate).
          destruct best as [g|]; cbn [best_right] in *.
          -- destruct BR as (IG & IDG & EG & BB). split; [apply in_modify_other; auto|]. split; [apply in_or_app; auto|]. split; [auto|]. intros x IX IDX EX. destruct (KEEP x IX IDX) as [(IX' & IDX')| ->]; [auto|contradiction].
          -- intros x IX IDX EX. destruct (KEEP x IX IDX) as [(IX' & IDX')| ->]; [eapply BR; eauto|contradiction].
      + assert (NEL : ~ eligible f') by (intros (X1 & _); congruence).
        destruct best as [g|]; cbn [best_right] in *.
        * destruct BR as (IG & IDG & EG & BB). split; [apply in_modify_other; auto|]. split; [apply in_or_app; auto|]. split; [auto|]. intros x IX IDX EX. destruct (KEEP x IX IDX) as [(IX' & IDX')| ->]; [auto|contradiction].
        * intros x IX IDX EX. destruct (KEEP x IX IDX) as [(IX' & IDX')| ->]; [eapply BR; eauto|contradiction].
  Qed.
  Lemma best_fold waiting n L : n_root n = root -> Forall U (n_stored n) -> In root (n_stored n) -> tree (n_forks n) -> forall fs best D,
    tree fs -> all_linked fs -> map f_hash fs = D ++ L -> data_right fs D -> best_right fs D best ->
    let '(fs', best') := fold_left (best_step waiting n) L (fs, best) in
    tree fs' /\ Forall2 grows fs fs' /\ view fs' = view fs /\ data_right fs' (D ++ L) /\ best_right fs' (D ++ L) best'.
  Proof.
    intros RT US IR TN. induction L as [|h L IH]; intros fs best D T AL E DR BR; cbn [fold_left].
    - rewrite app_nil_r. auto using grow_all_refl.
    - pose proof (best_step_ok waiting n fs best D h L RT US IR TN T AL E DR BR) as S. destruct (best_step waiting n (fs, best) h) as (fs1, best1).
      destruct S as (T1 & G1 & V1 & D1 & B1). specialize (IH fs1 best1 (D ++ [h])). rewrite V1 in IH. rewrite (grow_hash _ _ G1), E in IH. rewrite <- !app_assoc in IH. cbn [app] in IH.
      specialize (IH T1 (linked_all_grows _ _ G1 AL) eq_refl D1 B1). destruct (fold_left (best_step waiting n) L (fs1, best1)) as (fs2, best2).
      destruct IH as (T2 & G2 & V2 & D2 & B2). split; [exact T2|]. split; [exact (grow_all_trans _ _ _ G1 G2)|]. auto.
  Qed.
  Lemma find_best_ok waiting n : n_root n = root -> Forall U (n_stored n) -> In root (n_stored n) -> tree (n_forks n) -> all_linked (n_forks n) ->
    let '(fs, best) := find_best_fork waiting n in
    tree fs /\ Forall2 grows (n_forks n) fs /\ view fs = view (n_forks n) /\ data_right fs (map f_hash fs) /\ best_right fs (map f_hash fs) best.
  Proof.
    intros RT US IR T AL. unfold find_best_fork.
    pose proof (best_fold waiting n (map f_hash (n_forks n)) RT US IR T (n_forks n) None [] T AL eq_refl) as B.
    assert (D0 : data_right (n_forks n) []) by (intros _ l f _ _ _ []). assert (B0 : best_right (n_forks n) [] None) by (intros f _ []). specialize (B D0 B0).
    destruct (fold_left _ _ _) as (fs, best). cbn [app] in B. destruct B as (T1 & G1 & V1 & D1 & B1). rewrite (grow_hash _ _ G1). auto 10.
  Qed.

  (** ** Lines of forks *)
  Fixpoint chained (p : header) (l : list header) : Prop := match l with [] => True | b :: l => h_prev b = h_hash p /\ chained b l end.
  Lemma chained_app p l l' : chained p (l ++ l') <-> chained p l /\ chained (last l p) l'.
  Proof. revert p. induction l as [|b l IH]; intros p; cbn [app chained]; [cbn; tauto|]. rewrite IH, last_cons. tauto. Qed.
  Lemma follows_chained p l : follows p l -> chained p l.
  Proof. revert p. induction l as [|b l IH]; cbn; auto. intros p (E & _ & F). auto. Qed.
  Definition apart (b : header) : Prop := U b /\ b <> root.
  Lemma last_in (l : list header) d : l <> [] -> In (last l d) l.
  Proof. intros NE. destruct (exists_last NE) as (w & z & ->). rewrite last_snoc. apply in_or_app; cbn; auto. Qed.
  Lemma chained_unique l1 : forall l2, Forall apart l1 -> Forall apart l2 -> chained root l1 -> chained root l2 -> last l1 root = last l2 root -> l1 = l2.
  Proof.
    induction l1 as [|b l1 IH] using rev_ind; intros l2 A1 A2 C1 C2 E.
    - destruct l2 as [|c l2]; auto. exfalso. rewrite Forall_forall in A2. destruct (A2 (last (c :: l2) root)) as (_ & X); [apply last_in; discriminate|]. exact (X (eq_sym E)).
    - rewrite last_snoc in E. destruct l2 as [|c l2 _] using rev_ind.
      + exfalso. cbn in E. apply Forall_app in A1 as (_ & A1). inversion A1 as [|? ? (_ & X)]; subst. congruence.
      + rewrite last_snoc in E. subst c. apply Forall_app in A1 as (A1 & _), A2 as (A2 & _). apply chained_app in C1 as (C1 & P1 & _), C2 as (C2 & P2 & _).
        f_equal. apply IH; auto. apply NC; [| |congruence].
        * destruct l1 as [|x l1]; [exact UR|]. rewrite Forall_forall in A1. apply A1. apply last_in. discriminate.
        * destruct l2 as [|x l2]; [exact UR|]. rewrite Forall_forall in A2. apply A2. apply last_in. discriminate.
  Qed.
  Lemma chained_rank p l : Forall U l -> chained p l -> Forall (fun b => (rank (h_hash p) < rank (h_hash b))%nat) l.
  Proof.
    revert p. induction l as [|b l IH]; intros p UL C; constructor; inversion UL; subst; destruct C as (E & C).
    - rewrite <- E. now apply ACY. - eapply Forall_impl; [|apply (IH b); auto]. cbn. intros x X. pose proof (ACY b ltac:(auto)) as Y. rewrite E in Y. lia.
  Qed.
  Inductive isline (fs : list fork) : list fork -> fork -> Prop :=
  | il_first f : In f fs -> f_proof f = true -> f_all f = true -> f_height f = h_height root + 1 -> isline fs [f] f
  | il_next l g f : isline fs l g -> In f fs -> f_proof f = true -> f_all f = true -> f_height f <> h_height root + 1 -> f_prev f = Some (f_hash g) -> isline fs (l ++ [f]) f.
  Lemma line_exists fs f : tree fs -> In f fs -> f_all f = true -> exists l, isline fs l f.
  Proof.
    intros T. remember (rank (f_hash f)) as r eqn:R. revert f R. induction r as [r IH] using lt_wf_ind. intros f R I A.
    pose proof (t_local _ T f I) as L. destruct (l_all _ _ L A) as (P & D). destruct (N.eq_dec (f_height f) (h_height root + 1)) as [E|NE].
    - exists [f]. now apply il_first.
    - destruct D as [|(g & IG & EG & AG)]; [contradiction|]. assert (PV : f_hash g = h_prev (f_block f)) by (destruct (l_prev _ _ L) as [X|(X & _)]; congruence).
      destruct (IH (rank (f_hash g))) with (f := g) as (l & IL); auto.
      { subst r. rewrite PV. apply ACY. apply (l_u _ _ L). }
      exists (l ++ [f]). eapply il_next; eauto.
  Qed.
  Lemma line_facts fs l f : tree fs -> isline fs l f -> l <> [] /\ last l f = f /\ chained root (map f_block l) /\ Forall (fun x => In x fs /\ f_proof x = true /\ f_all x = true) l.
  Proof.
    intros T. induction 1 as [f I P A H|l g f IL IH I P A H V].
    - split; [discriminate|]. split; [reflexivity|]. split; [|repeat constructor; auto]. cbn. split; auto. now apply (l_first _ _ (t_local _ T f I)).
    - destruct IH as (NE & LA & CH & FA). split; [destruct l; discriminate|]. split; [apply last_snoc|]. split; [|apply Forall_app; split; auto].
      rewrite map_app. apply chained_app. split; auto. cbn. split; auto.
      assert (E : last (map f_block l) root = f_block g). { destruct (exists_last NE) as (w & z & ->). rewrite last_snoc in LA. subst z. rewrite map_app. cbn [map]. apply last_snoc. }
      rewrite E. destruct (l_prev _ _ (t_local _ T f I)) as [X|(X & _)]; [congruence|]. unfold f_hash in *. congruence.
  Qed.
  Lemma fork_apart fs f : tree fs -> In f fs -> apart (f_block f).
  Proof. intros T I. pose proof (t_local _ T f I) as L. split; [apply (l_u _ _ L)|]. intros E. pose proof (l_above _ _ L) as A. unfold f_height in A. rewrite E in A. lia. Qed.
  Lemma line_apart fs l f : tree fs -> isline fs l f -> Forall apart (map f_block l).
  Proof.
    intros T IL. destruct (line_facts _ _ _ T IL) as (_ & _ & _ & FA). rewrite Forall_forall in *. intros b I. apply in_map_iff in I as (x & <- & I). apply (fork_apart fs); auto. apply FA; auto.
  Qed.
  Lemma chained_nodup p l : Forall U l -> chained p l -> NoDup l.
  Proof.
    revert p. induction l as [|b l IH]; intros p UL C; constructor; inversion UL as [|? ? UB UL']; subst; destruct C as (_ & C).
    - intros I. pose proof (chained_rank b l UL' C) as R. rewrite Forall_forall in R. specialize (R b I). lia. - eauto.
  Qed.
  Lemma line_length fs l f : tree fs -> isline fs l f -> (length l <= length fs)%nat.
  Proof.
    intros T IL. pose proof (line_apart _ _ _ T IL) as A. destruct (line_facts _ _ _ T IL) as (_ & _ & C & FA).
    assert (N : NoDup (map f_block l)) by (apply (chained_nodup root); auto; eapply Forall_impl; [|exact A]; intros x X; apply X). apply NoDup_map_inv in N.
    apply NoDup_incl_length; auto. intros x I. rewrite Forall_forall in FA. now apply FA.
  Qed.
  Record fits (n : node) : Prop := mk_fits { fi_root : n_root n = root; fi_tree : tree (n_forks n); fi_stored : Forall U (n_stored n); fi_in : In root (n_stored n) }.
  Lemma walk_ok n l f : fits n -> isline (n_forks n) l f -> forall fuel acc, (length l <= fuel)%nat -> walk_line n fuel (Some f) acc = Some (l ++ acc).
  Proof.
    intros [RT T US IR]. induction 1 as [f I P A H|l g f IL IH I P A H V]; intros fuel acc LE.
    - destruct fuel; [cbn in LE; lia|]. cbn [walk_line]. rewrite RT, H, N.eqb_refl, (l_first _ _ (t_local _ T f I) H), (get_root n T US IR). reflexivity.
    - rewrite app_length in LE. cbn in LE. destruct fuel; [lia|]. cbn [walk_line]. rewrite RT. destruct (f_height f =? h_height root + 1) eqn:E; [apply N.eqb_eq in E; contradiction|].
      cbn [andb]. rewrite V. cbn [lock]. assert (IG : In g (n_forks n)) by (inversion IL; auto). rewrite (find_fork_in _ _ (t_nodup _ T) IG). rewrite IH by lia. now rewrite <- app_assoc.
  Qed.
  Lemma fork_line_ok n f : fits n -> In f (n_forks n) -> f_all f = true -> exists l, isline (n_forks n) l f /\ fork_line n (Some f) = Some l.
  Proof.
    intros F I A. destruct (line_exists _ _ (fi_tree _ F) I A) as (l & IL). exists l. split; auto. unfold fork_line. rewrite (walk_ok n l f F IL); [now rewrite app_nil_r|].
    pose proof (line_length _ _ _ (fi_tree _ F) IL). lia.
  Qed.

  (** ** The blocks that are applied *)
  Record applied (n : node) (l : list header) : Prop := mk_applied {
    ap_main : n_main n = rev l ++ root :: older;
    ap_follows : follows root l;
    ap_forks : forall b, In b l -> exists f, In f (n_forks n) /\ f_block f = b /\ f_proof f = true /\ f_validated f = true /\ f_all f = true }.
  Lemma state_last n l : n_main n = rev l ++ root :: older -> state_hash n = h_hash (last l root).
  Proof. intros E. unfold state_hash. rewrite E. destruct l as [|b l _] using rev_ind; [reflexivity|]. rewrite rev_app_distr, last_snoc. reflexivity. Qed.
  Lemma applied_apart n l : tree (n_forks n) -> applied n l -> Forall apart l.
  Proof. intros T A. apply Forall_forall. intros b I. destruct (ap_forks _ _ A b I) as (f & IF & <- & _). now apply (fork_apart (n_forks n)). Qed.
  Lemma applied_grows n n' l : Forall2 grows (n_forks n) (n_forks n') -> n_main n' = n_main n -> applied n l -> applied n' l.
  Proof.
    intros G E [A1 A2 A3]. constructor; auto; [congruence|]. intros b I. destruct (A3 b I) as (f & IF & B & P & V & A). destruct (Forall2_in_l _ _ _ _ G IF) as (f' & IF' & GF).
    exists f'. split; auto. split; [rewrite (g_block _ _ GF); auto|]. split; [now apply (g_proof _ _ GF)|]. split; [now apply (g_validated _ _ GF)|now apply (g_all _ _ GF)].
  Qed.
  Lemma last_U (l : list header) : Forall apart l -> U (last l root).
  Proof. intros A. destruct l as [|x l]; [exact UR|]. rewrite Forall_forall in A. apply A. apply last_in. discriminate. Qed.
  Lemma main_line n l : fits n -> applied n l -> exists m, fork_line n None = Some m /\ map f_block m = l.
  Proof.
    intros F A. unfold fork_line. rewrite (state_last n l (ap_main _ _ A)), (fi_root _ F). destruct l as [|b l].
    - cbn [last]. rewrite addr_eqb_refl. exists []. auto.
    - pose proof (applied_apart n _ (fi_tree _ F) A) as AP. set (p := last (b :: l) root) in *. assert (IP : In p (b :: l)) by (apply last_in; discriminate).
      destruct (addr_eqb_spec (h_hash p) (h_hash root)) as [E|_].
      { exfalso. rewrite Forall_forall in AP. destruct (AP p IP) as (UP & NP). apply NP. now apply NC. }
      destruct (ap_forks _ _ A p IP) as (f & IF & BF & PF & VF & AF). rewrite <- BF. change (h_hash (f_block f)) with (f_hash f). rewrite (find_fork_in _ _ (t_nodup _ (fi_tree _ F)) IF).
      destruct (line_exists _ _ (fi_tree _ F) IF AF) as (m & IL). rewrite (walk_ok n m f F IL) by (pose proof (line_length _ _ _ (fi_tree _ F) IL); lia).
      exists m. rewrite app_nil_r. split; auto. destruct (line_facts _ _ _ (fi_tree _ F) IL) as (NE & LA & CH & _).
      apply chained_unique; auto; [eapply line_apart; eauto; apply (fi_tree _ F)|apply follows_chained; apply A|].
      destruct (exists_last NE) as (w & z & ->). rewrite last_snoc in LA. subst z. rewrite map_app. cbn [map]. rewrite last_snoc. exact BF.
  Qed.
  Lemma member_in h l : member h l = true <-> In h l.
  Proof.
    unfold member. rewrite existsb_exists. split.
    - intros (x & I & E). destruct (addr_eqb_spec h x); [now subst|discriminate]. - intros I. exists h. split; auto. apply addr_eqb_refl.
  Qed.
  Lemma forked_ok l : Forall apart l -> chained root l -> forall r c m, l = c ++ m -> Forall apart (c ++ r) -> chained root (c ++ r) ->
    exists c' r' m', c ++ r = c' ++ r' /\ l = c' ++ m' /\ forked_at (map h_hash l) r (last c root) = last c' root.
  Proof.
    intros AL CL. induction r as [|b r IH]; intros c m E AR CR; cbn [forked_at].
    - exists c, [], m. auto.
    - destruct (member (h_hash b) (map h_hash l)) eqn:M; [|exists c, (b :: r), m; auto].
      apply member_in in M. apply in_map_iff in M as (x & EX & IX).
      assert (UB : U b). { rewrite Forall_forall in AR. apply AR. apply in_or_app. cbn. auto. }
      assert (x = b). { apply NC; auto. rewrite Forall_forall in AL. now apply AL. } subst x.
      apply in_split in IX as (l1 & l2 & EL).
      assert (E2 : l1 ++ [b] = c ++ [b]).
      { apply chained_unique; rewrite ?last_snoc; auto.
        - rewrite EL in AL. apply Forall_app in AL as (AL1 & AL2). apply Forall_app. split; auto. inversion AL2; subst; auto.
        - apply Forall_app in AR as (AR1 & AR2). apply Forall_app. split; auto. inversion AR2; subst; auto.
        - rewrite EL in CL. apply chained_app in CL as (C1 & C2). apply chained_app. split; auto. cbn in *. tauto.
        - apply chained_app in CR as (C1 & C2). apply chained_app. split; auto. cbn in *. tauto. }
      apply app_inv_tail in E2. subst l1. replace (c ++ b :: r) with ((c ++ [b]) ++ r) by (now rewrite <- app_assoc). replace (forked_at (map h_hash l) r b) with (forked_at (map h_hash l) r (last (c ++ [b]) root)) by (now rewrite last_snoc).
      apply (IH (c ++ [b]) l2); [now rewrite <- app_assoc|now rewrite <- app_assoc|now rewrite <- app_assoc].
  Qed.
  Lemma follows_last p l : follows p l -> h_height p <= h_height (last l p) /\ forall b, In b l -> h_height b <= h_height (last l p).
  Proof.
    revert p. induction l as [|c l IH]; intros p F; [cbn; split; [lia|contradiction]|]. rewrite last_cons. destruct F as (_ & H & F). destruct (IH _ F) as (I1 & I2).
    split; [lia|]. intros b [<-|I]; auto.
  Qed.
  Lemma filter_all {A} (f : A -> bool) l : (forall x, In x l -> f x = true) -> filter f l = l.
  Proof. induction l as [|x l IH]; cbn; auto. intros H. rewrite (H x) by auto. f_equal. apply IH. auto. Qed.
  Lemma filter_none {A} (f : A -> bool) l : (forall x, In x l -> f x = false) -> filter f l = [].
  Proof. induction l as [|x l IH]; cbn; auto. intros H. rewrite (H x) by auto. apply IH. auto. Qed.
  Lemma revert_ok n c m : n_main n = rev (c ++ m) ++ root :: older -> follows root (c ++ m) -> n_main (revert (h_height (last c root) + 1) n) = rev c ++ root :: older.
  Proof.
    intros E F. cbn [revert n_main]. rewrite E. apply follows_app in F as (F1 & F2). destruct (follows_last _ _ F1) as (H1 & H2). pose proof (follows_height _ _ F2) as H3.
    rewrite rev_app_distr, !filter_app. rewrite (filter_none _ (rev m)), (filter_all _ (rev c)), (filter_all _ (root :: older)); [reflexivity|..].
    - intros x [<-|I]; [apply N.ltb_lt; lia|]. rewrite Forall_forall in OLD. destruct (OLD x I). apply N.ltb_lt. lia.
    - intros x I. apply in_rev in I. apply N.ltb_lt. specialize (H2 x I). lia.
    - intros x I. apply in_rev in I. apply N.ltb_ge. specialize (H3 x I). lia.
  Qed.
  (** ** Applying a line *)
  Lemma modify_const fs h f g : NoDup (map f_hash fs) -> find_fork fs h = Some f -> modify h g fs = modify h (fun _ => g f) fs.
  Proof.
    intros N F. apply find_fork_some in F as (I & E). unfold modify. apply map_ext_in. intros x IX. destruct (addr_eqb_spec (f_hash x) h); auto. assert (x = f) as ->; auto. eapply nodup_inj; eauto. congruence.
  Qed.
  Lemma get_header_U n h p : fits n -> get_header n h = Some p -> U p /\ h_hash p = h.
  Proof.
    intros [RT T US IR]. unfold get_header. destruct (find_fork (n_forks n) h) as [f|] eqn:F.
    - intros [= <-]. apply find_fork_some in F as (I & E). split; auto. apply (l_u _ _ (t_local _ T f I)).
    - unfold find_header. intros FB. apply find_some in FB as (I & E). destruct (addr_eqb_spec (h_hash p) h); [|discriminate]. split; auto. rewrite Forall_forall in US. auto.
  Qed.
  Lemma get_last n c : fits n -> applied n c -> get_header n (h_hash (last c root)) = Some (last c root).
  Proof.
    intros F A. destruct c as [|x c]; [apply get_root; apply F|]. set (p := last (x :: c) root). assert (IP : In p (x :: c)) by (apply last_in; discriminate).
    destruct (ap_forks _ _ A p IP) as (f & IF & BF & _). unfold get_header. rewrite <- BF. change (h_hash (f_block f)) with (f_hash f). rewrite (find_fork_in _ _ (t_nodup _ (fi_tree _ F)) IF). reflexivity.
  Qed.
  Lemma apply_skip xs ys n : tree (n_forks n) -> Forall (fun b => (exists f, In f (n_forks n) /\ f_block f = b) /\ h_prev b <> state_hash n) xs ->
    apply_line ok (map h_hash (xs ++ ys)) n = apply_line ok (map h_hash ys) n.
  Proof.
    intros T. induction 1 as [|b xs ((f & I & B) & NE) _ IH]; [reflexivity|]. cbn [app map apply_line]. rewrite <- B. change (h_hash (f_block f)) with (f_hash f). rewrite (find_fork_in _ _ (t_nodup _ T) I). rewrite B.
    destruct (addr_eqb_spec (h_prev b) (state_hash n)); [contradiction|]. exact IH.
  Qed.
  Lemma last_mid (w : list header) b r d : last (w ++ b :: r) d = last r b.
  Proof. revert d. induction w as [|x w IH]; intros d; cbn [app]; rewrite last_cons; auto. Qed.
  Lemma prev_not_last c b : Forall U c -> chained root c -> In b c -> h_prev b <> h_hash (last c root).
  Proof.
    intros UC C I E. assert (UB : U b) by (rewrite Forall_forall in UC; auto). pose proof (ACY b UB) as R. rewrite E in R.
    apply in_split in I as (c1 & c2 & ->). apply Forall_app in UC as (_ & UC). inversion UC; subst. apply chained_app in C as (_ & _ & C).
    pose proof (last_mid c1 b c2 root) as L.
    rewrite L in R. destruct c2 as [|y c2]; [cbn in R; lia|]. pose proof (chained_rank b (y :: c2) ltac:(auto) C) as X. rewrite Forall_forall in X.
    specialize (X (last (y :: c2) b) (last_in (y :: c2) b ltac:(discriminate))). lia.
  Qed.
  Lemma apply_rest r : forall n c, fits n -> applied n c -> chained (last c root) r ->
    (forall b, In b r -> exists f, In f (n_forks n) /\ f_block f = b /\ f_proof f = true /\ f_all f = true) ->
    let '(n', done) := apply_line ok (map h_hash r) n in
    fits n' /\ Forall2 grows (n_forks n) (n_forks n') /\ view (n_forks n') = view (n_forks n) /\
    (if done then applied n' (c ++ r) else exists r1 b r2, r = r1 ++ b :: r2 /\ applied n' (c ++ r1) /\ bad (n_forks n') b) /\
    ((forall b, In b r -> exists f, In f (n_forks n) /\ f_block f = b /\ f_validated f = true) -> done = true).
  Proof.
    induction r as [|b r IH]; intros n c F A C IN; cbn [map apply_line].
    - rewrite app_nil_r. auto 10 using grow_all_refl.
    - destruct (IN b ltac:(cbn; auto)) as (f & IF & BF & PF & AF). pose proof F as [RT T US IR]. pose proof (t_local _ T f IF) as L. destruct C as (PB & C).
      assert (FF : find_fork (n_forks n) (h_hash b) = Some f) by (rewrite <- BF; apply (find_fork_in _ _ (t_nodup _ T) IF)). rewrite FF, BF.
      rewrite (state_last _ _ (ap_main _ _ A)), PB, addr_eqb_refl. cbn [negb].
      assert (UB : U b) by (rewrite <- BF; apply (l_u _ _ L)).
      assert (UL : U (last c root)) by (apply last_U; eapply applied_apart; eauto).
      (* going on with the block applied *)
      assert (GO : forall n1, fits n1 -> Forall2 grows (n_forks n) (n_forks n1) -> view (n_forks n1) = view (n_forks n) -> n_main n1 = b :: n_main n ->
                 (exists f1, In f1 (n_forks n1) /\ f_block f1 = b /\ f_validated f1 = true) -> h_height b = h_height (last c root) + 1 ->
                 let '(n', done) := apply_line ok (map h_hash r) n1 in
                 fits n' /\ Forall2 grows (n_forks n) (n_forks n') /\ view (n_forks n') = view (n_forks n) /\
                 (if done then applied n' (c ++ b :: r) else exists r1 x r2, b :: r = r1 ++ x :: r2 /\ applied n' (c ++ r1) /\ bad (n_forks n') x) /\
                 ((forall x, In x (b :: r) -> exists f, In f (n_forks n) /\ f_block f = x /\ f_validated f = true) -> done = true)).
      { intros n1 F1 G1 V1 M1 (f1 & IF1 & BF1 & VF1) HB.
        assert (A1 : applied n1 (c ++ [b])).
        { constructor.
          - rewrite M1, (ap_main _ _ A), rev_app_distr. reflexivity.
          - apply follows_app. split; [apply A|]. cbn. auto.
          - intros x I. destruct A as [A1 A2 A3]. apply in_app_or in I as [I|[<-|[]]].
            + destruct (A3 x I) as (g & IG & BG & PG & VG & AG). destruct (Forall2_in_l _ _ _ _ G1 IG) as (g' & IG' & GG). exists g'. split; auto. split; [rewrite (g_block _ _ GG); auto|].
              split; [now apply (g_proof _ _ GG)|]. split; [now apply (g_validated _ _ GG)|now apply (g_all _ _ GG)].
            + destruct (Forall2_in_l _ _ _ _ G1 IF) as (g' & IG' & GG). assert (g' = f1) by (eapply nodup_inj; [apply (t_nodup _ (fi_tree _ F1))|auto|auto|]; unfold f_hash; rewrite (g_block _ _ GG); congruence). subst g'.
              exists f1. split; auto. split; auto. split; [now apply (g_proof _ _ GG)|]. split; auto. now apply (g_all _ _ GG). }
        specialize (IH n1 (c ++ [b]) F1 A1). rewrite last_snoc in IH. specialize (IH C).
        assert (IN1 : forall x, In x r -> exists g, In g (n_forks n1) /\ f_block g = x /\ f_proof g = true /\ f_all g = true).
        { intros x I. destruct (IN x ltac:(cbn; auto)) as (g & IG & BG & PG & AG). destruct (Forall2_in_l _ _ _ _ G1 IG) as (g' & IG' & GG). exists g'. split; auto.
          split; [rewrite (g_block _ _ GG); auto|]. split; [now apply (g_proof _ _ GG)|now apply (g_all _ _ GG)]. }
        specialize (IH IN1). destruct (apply_line ok (map h_hash r) n1) as (n', done). destruct IH as (F2 & G2 & V2 & D2 & VA).
        split; [auto|]. split; [exact (grow_all_trans _ _ _ G1 G2)|]. split; [congruence|]. rewrite <- app_assoc in D2. cbn [app] in D2. split.
        - destruct done; auto. destruct D2 as (r1 & x & r2 & ER & A2 & B2). exists (b :: r1), x, r2. split; [cbn; congruence|]. rewrite <- app_assoc in A2. auto.
        - intros ALL. apply VA. intros x I. destruct (ALL x ltac:(cbn; auto)) as (g & IG & BG & VG). destruct (Forall2_in_l _ _ _ _ G1 IG) as (g' & IG' & GG). exists g'. split; auto.
          split; [rewrite (g_block _ _ GG); auto|now apply (g_validated _ _ GG)]. }
      destruct (f_validated f) eqn:VF.
      + apply GO; cbn [apply_block n_forks n_main]; auto using grow_all_refl.
        * constructor; cbn; auto.
        * eauto.
        * destruct (l_validated _ _ L VF) as (_ & p & UP & EP & HP). rewrite BF in *. assert (p = last c root) as <- by (apply NC; auto; congruence). unfold f_height in HP. congruence.
      + destruct (validate ok n b) eqn:VD.
        * unfold validate in VD. rewrite PB in VD. rewrite (get_last n c F A) in VD. apply andb_true_iff in VD as (VD & OK). apply andb_true_iff in VD as (_ & HH). apply N.eqb_eq in HH.
          rewrite (modify_const _ _ f set_validated (t_nodup _ T) FF). set (f' := set_validated f).
          assert (G : grows f f') by (constructor; cbn; auto).
          assert (GG : Forall2 grows (n_forks n) (modify (h_hash b) (fun _ => f') (n_forks n))) by (apply modify_forall2; [apply grows_refl|]; intros x I E; assert (x = f) as ->; auto; eapply nodup_inj; eauto using t_nodup; apply find_fork_some in FF as (_ & FF); congruence).
          assert (LL : local (modify (h_hash b) (fun _ => f') (n_forks n)) f').
          { pose proof (local_mono _ _ _ GG L) as [M1 M2 M3 M4 M5 M6 M7 M8]. constructor; cbn; auto. intros _. rewrite BF. split; auto. exists (last c root). unfold f_height. cbn. rewrite BF. auto. }
          destruct (tree_modify _ _ f f' T FF G LL) as (T' & _).
          apply GO; cbn [apply_block set_forks n_forks n_main]; auto.
          -- constructor; cbn; auto.
          -- apply (view_modify _ _ f f' (t_nodup _ T) FF); reflexivity.
          -- exists f'. split; [apply (in_modified _ _ f f' T FF)|]. cbn. auto.
        * assert (BD : forall fs, bad fs b).
          { intros fs. unfold validate in VD. rewrite PB in VD. rewrite (get_last n c F A), (state_last _ _ (ap_main _ _ A)), addr_eqb_refl in VD. cbn [andb] in VD. apply andb_false_iff in VD as [VD|VD]; [|now apply bad_ok].
            apply N.eqb_neq in VD. eapply (bad_height _ _ (last c root)); auto. }
          rewrite (modify_const _ _ f set_invalid (t_nodup _ T) FF). set (f' := set_invalid f).
          assert (G : grows f f') by (constructor; cbn; auto).
          assert (GG : Forall2 grows (n_forks n) (modify (h_hash b) (fun _ => f') (n_forks n))) by (apply modify_forall2; [apply grows_refl|]; intros x I E; assert (x = f) as ->; auto; eapply nodup_inj; eauto using t_nodup; apply find_fork_some in FF as (_ & FF); congruence).
          assert (LL : local (modify (h_hash b) (fun _ => f') (n_forks n)) f').
          { pose proof (local_mono _ _ _ GG L) as [M1 M2 M3 M4 M5 M6 M7 M8]. constructor; cbn; auto. intros _. rewrite BF. auto. }
          destruct (tree_modify _ _ f f' T FF G LL) as (T' & _).
          split; [constructor; cbn; auto|]. split; [exact GG|]. split; [apply (view_modify _ _ f f' (t_nodup _ T) FF); reflexivity|]. split.
          -- exists [], b, r. split; [reflexivity|]. rewrite app_nil_r. split; [|apply BD]. apply (applied_grows n); auto.
          -- intros ALL. exfalso. destruct (ALL b ltac:(cbn; auto)) as (g & IG & BG & VG). assert (g = f) by (eapply nodup_inj; [apply (t_nodup _ T)|auto|auto|]; unfold f_hash; congruence). congruence.
  Qed.
  Lemma bad_chain fs l : forall b, bad fs b -> chained b l -> (exists g, In g fs /\ f_block g = b) -> (forall x, In x l -> exists g, In g fs /\ f_block g = x) -> bad fs (last l b).
  Proof.
    induction l as [|c l IH]; intros b B C (g & IG & BG) IN; [exact B|]. rewrite last_cons. destruct C as (P & C). apply IH; auto.
    - apply (bad_prev _ _ g); auto; unfold f_hash; congruence. - apply IN; cbn; auto. - intros; apply IN; cbn; auto.
  Qed.
  Lemma applied_same n l l' : tree (n_forks n) -> applied n l -> Forall apart l' -> chained root l' -> h_hash (last l root) = h_hash (last l' root) -> l = l'.
  Proof.
    intros T A AP C E. assert (AL : Forall apart l) by (eapply applied_apart; eauto). apply chained_unique; auto; [apply follows_chained; apply A|]. apply NC; auto using last_U.
  Qed.
  Lemma line_last fs l f : tree fs -> isline fs l f -> last (map f_block l) root = f_block f.
  Proof. intros T IL. destruct (line_facts _ _ _ T IL) as (NE & LA & _). destruct (exists_last NE) as (w & z & ->). rewrite last_snoc in LA. subst z. rewrite map_app. cbn [map]. apply last_snoc. Qed.
  Lemma switch_ok proof_ok n l0 f : fits n -> applied n l0 -> In f (n_forks n) -> f_all f = true ->
    match switch ok proof_ok n f with
    | Done n' => fits n' /\ Forall2 grows (n_forks n) (n_forks n') /\ view (n_forks n') = view (n_forks n) /\ exists l, l <> [] /\ applied n' l /\ last l root = f_block f
    | Rejected n' => fits n' /\ Forall2 grows (n_forks n) (n_forks n') /\ view (n_forks n') = view (n_forks n) /\ (exists l, applied n' l) /\ bad (n_forks n') (f_block f) /\
        forall l, Forall apart l -> chained root l -> last l root = f_block f -> ~ (forall b, In b l -> exists g, In g (n_forks n) /\ f_block g = b /\ f_validated g = true)
    | _ => False
    end.
  Proof.
    intros F A IF AF. pose proof F as [RT T US IR]. unfold switch. destruct (fork_line_ok n f F IF AF) as (line & IL & ->).
    destruct (line_facts _ _ _ T IL) as (NE & LA & CH & FA). pose proof (line_apart _ _ _ T IL) as AP. pose proof (line_last _ _ _ T IL) as LL.
    destruct line as [|first rest]; [contradiction|]. set (line := first :: rest) in *.
    assert (PF : h_prev (f_block first) = h_hash (n_root n)) by (rewrite RT; apply CH). rewrite PF, addr_eqb_refl.
    destruct (main_line n l0 F A) as (m & -> & MB). assert (MH : map f_hash m = map h_hash l0) by (rewrite <- MB, map_map; reflexivity). rewrite MH, RT.
    pose proof (applied_apart n l0 T A) as AL. pose proof (follows_chained _ _ (ap_follows _ _ A)) as CL.
    destruct (forked_ok l0 AL CL (map f_block line) [] l0 eq_refl AP CH) as (c & r & m' & ER & EL & EF). cbn [app last] in ER, EF. rewrite EF.
    set (n1 := if addr_eqb (h_hash (last c root)) (state_hash n) then n else revert (h_height (last c root) + 1) n).
    assert (M1 : n_main n1 = rev c ++ root :: older).
    { unfold n1. destruct (addr_eqb_spec (h_hash (last c root)) (state_hash n)) as [E|NQ].
      - rewrite (state_last _ _ (ap_main _ _ A)) in E. assert (UC : Forall apart c) by (rewrite EL in AL; apply Forall_app in AL; apply AL).
        assert (c = l0) as ->; [|apply A]. rewrite EL in CL. apply chained_app in CL as (CL & _). symmetry. apply (applied_same n); auto.
      - apply revert_ok with (m := m'); rewrite <- EL; apply A. }
    assert (F1 : fits n1) by (unfold n1; destruct (addr_eqb _ _); [exact F|constructor; auto]).
    assert (N1 : n_forks n1 = n_forks n) by (unfold n1; destruct (addr_eqb _ _); reflexivity).
    clearbody n1.
    assert (A1 : applied n1 c).
    { constructor; auto.
      - pose proof (ap_follows _ _ A) as X. rewrite EL in X. apply follows_app in X. apply X.
      - intros b I. rewrite N1. apply (ap_forks _ _ A). rewrite EL. apply in_or_app. auto. }
    assert (HL : map f_hash line = map h_hash (c ++ r)) by (rewrite <- ER, map_map; reflexivity). rewrite HL.
    assert (IN : forall b, In b (c ++ r) -> exists f, In f (n_forks n1) /\ f_block f = b /\ f_proof f = true /\ f_all f = true).
    { rewrite <- ER. intros b I. apply in_map_iff in I as (x & <- & I). rewrite Forall_forall in FA. rewrite N1. exists x. destruct (FA x I) as (? & ? & ?). auto. }
    pose proof CH as CH'. rewrite ER in CH', AP, LL. apply chained_app in CH' as (CC & CR). pose proof AP as AP'. apply Forall_app in AP' as (AC & AR).
    rewrite apply_skip; [|apply F1|].
    2: { apply Forall_forall. intros b I. split; [destruct (IN b ltac:(apply in_or_app; auto)) as (x & ? & ? & _); eauto|]. rewrite (state_last _ _ M1). apply prev_not_last; auto.
         eapply Forall_impl; [|exact AC]. intros y Y. apply Y. }
    pose proof (apply_rest r n1 c F1 A1 CR ltac:(intros b I; apply IN; apply in_or_app; auto)) as R.
    destruct (apply_line ok (map h_hash r) n1) as (n', done). rewrite N1 in R. destruct R as (F2 & G2 & V2 & D2 & VA). destruct done.
    - split; [auto|]. split; [auto|]. split; [auto|]. exists (c ++ r). rewrite <- ER at 1. split; [discriminate|]. auto.
    - split; [auto|]. split; [auto|]. split; [auto|]. destruct D2 as (r1 & b & r2 & ER2 & A2 & B2). split; [eauto|]. split.
      + assert (FB : forall x, In x (c ++ r) -> exists g, In g (n_forks n') /\ f_block g = x).
        { intros x I. destruct (IN x I) as (g & IG & BG & _). rewrite N1 in IG. destruct (Forall2_in_l _ _ _ _ G2 IG) as (g' & IG' & GG). exists g'. split; auto. rewrite (g_block _ _ GG). auto. }
        rewrite <- LL, ER2. assert (LX : last (c ++ r1 ++ b :: r2) root = last r2 b).
        { rewrite app_assoc. apply last_mid. }
        rewrite LX. apply bad_chain; auto.
        * rewrite ER2 in CR. apply chained_app in CR as (_ & _ & CR). exact CR.
        * apply FB. rewrite ER2. apply in_or_app. right. apply in_or_app. cbn. auto.
        * intros x I. apply FB. rewrite ER2. apply in_or_app. right. apply in_or_app. cbn. auto.
      + intros l APL CHL LAL VAL. rewrite ER in CH. assert (l = c ++ r) by (apply chained_unique; auto; congruence). subst l. discriminate VA. intros x I. apply VAL. apply in_or_app. auto.
  Qed.
  (** ** The loop *)
  Definition count (fs : list fork) : nat := length (filter (fun f => negb (f_invalid f)) fs).
  Lemma count_le fs : (count fs <= length fs)%nat.
  Proof. unfold count. induction fs as [|f fs IH]; cbn; auto. destruct (f_invalid f); cbn; lia. Qed.
  Lemma count_grows fs fs' : Forall2 grows fs fs' -> (count fs' <= count fs)%nat.
  Proof.
    unfold count. induction 1 as [|f f' fs fs' G _ IH]; cbn [filter]; auto. destruct (f_invalid f) eqn:I.
    - destruct (g_invalid _ _ G I) as (-> & _). cbn. exact IH.
    - destruct (f_invalid f'); cbn; lia.
  Qed.
  Lemma count_lt fs fs' f : Forall2 grows fs fs' -> In f fs -> f_invalid f = false -> (forall f', In f' fs' -> f_hash f' = f_hash f -> f_invalid f' = true) -> (count fs' < count fs)%nat.
  Proof.
    induction 1 as [|x x' fs fs' G GG IH]; intros I V A; [contradiction|]. destruct I as [->|I].
    - pose proof (count_grows _ _ GG) as C. unfold count in *. cbn [filter]. rewrite V, (A x'); [cbn; lia|cbn; auto|unfold f_hash; now rewrite (g_block _ _ G)].
    - assert (C : (count fs' < count fs)%nat) by (apply IH; auto; intros; apply A; cbn; auto). unfold count in *. cbn [filter]. destruct (f_invalid x) eqn:X.
      + destruct (g_invalid _ _ G X) as (-> & _). cbn. exact C. + destruct (f_invalid x'); cbn; lia.
  Qed.
  Lemma applied_candidate n l : fits n -> applied n l -> l <> [] -> candidate ok root (view (n_forks n)) l.
  Proof.
    intros F A NE. split; auto. split; [apply A|]. apply Forall_forall. intros b I. destruct (ap_forks _ _ A b I) as (f & IF & BF & PF & VF & AF). split; [apply verified_in; eauto|].
    rewrite <- BF. apply (l_validated _ _ (t_local _ (fi_tree _ F) f IF) VF).
  Qed.
  Lemma candidate_fork fs l : tree fs -> candidate ok root (view fs) l -> all_votes (view fs) < 2 ^ 32 -> data_right fs (map f_hash fs) -> exists f, In f fs /\ f_block f = last l root /\ eligible f /\ f_total f = total_votes (view fs) l.
  Proof.
    intros T C AV DR. pose proof C as (NE & _ & V). rewrite Forall_forall in V. destruct (V (last l root) (last_in _ _ NE)) as (VL & _). apply verified_in in VL as (f & IF & BF & PF).
    destruct (DR AV l f C IF BF (in_map _ _ _ IF)) as (D1 & D2 & D3). exists f. split; auto. split; auto. split; auto. split; auto. split; auto.
    destruct (f_invalid f) eqn:I; auto. exfalso. apply (candidate_not_bad fs l T C (f_block f)); [apply (l_invalid _ _ (t_local _ T f IF) I)|]. rewrite BF. now apply last_in.
  Qed.
  Lemma candidate_apart fs l : tree fs -> candidate ok root (view fs) l -> Forall apart l.
  Proof. intros T (_ & _ & V). rewrite Forall_forall in *. intros b I. destruct (V b I) as (VB & _). apply verified_in in VB as (f & IF & <- & _). now apply (fork_apart fs). Qed.
  Lemma best_is_best fs g l : tree fs -> all_votes (view fs) < 2 ^ 32 -> data_right fs (map f_hash fs) -> best_right fs (map f_hash fs) (Some g) -> candidate ok root (view fs) l -> last l root = f_block g ->
    best_chain ok root (view fs) l.
  Proof.
    intros T AV DR (IG & _ & EG & BB) C LL. split; auto. intros l' C'. destruct (candidate_fork fs l' T C' AV DR) as (f' & IF' & BF' & EF' & TF').
    destruct (DR AV l g C IG (eq_sym LL) (in_map _ _ _ IG)) as (_ & _ & TG).
    destruct (BB f' IF' (in_map _ _ _ IF') EF') as [->|B].
    - left. apply chained_unique; [exact (candidate_apart _ _ T C')|exact (candidate_apart _ _ T C)|apply follows_chained; apply C'|apply follows_chained; apply C|congruence].
    - right. unfold fbeats, f_height, f_hash in B. unfold beats. cbv zeta. rewrite LL, <- BF', <- TG, <- TF'. exact B.
  Qed.
  Lemma invalid_ok n f : fits n -> In f (n_forks n) -> bad (n_forks n) (f_block f) -> let fs' := modify (f_hash f) set_invalid (n_forks n) in
    fits (set_forks n fs') /\ Forall2 grows (n_forks n) fs' /\ view fs' = view (n_forks n).
  Proof.
    intros [RT T US IR] IF B. cbv zeta. assert (FF := find_fork_in _ _ (t_nodup _ T) IF). pose proof (t_local _ T f IF) as L.
    rewrite (modify_const _ _ f set_invalid (t_nodup _ T) FF). set (f' := set_invalid f).
    assert (G : grows f f') by (constructor; cbn; auto).
    assert (GG : Forall2 grows (n_forks n) (modify (f_hash f) (fun _ => f') (n_forks n))) by (apply modify_forall2; [apply grows_refl|]; intros x I E; assert (x = f) as ->; auto; eapply nodup_inj; eauto using t_nodup).
    assert (LL : local (modify (f_hash f) (fun _ => f') (n_forks n)) f').
    { pose proof (local_mono _ _ _ GG L) as [M1 M2 M3 M4 M5 M6 M7 M8]. constructor; cbn; auto. intros _. eapply bad_grows; eauto. }
    destruct (tree_modify _ _ f f' T FF G LL) as (T' & _).
    split; [constructor; cbn; auto|]. split; auto. apply (view_modify _ _ f f' (t_nodup _ T) FF); reflexivity.
  Qed.
  Lemma choose_ok waiting proof_ok fuel : forall n l0, (count (n_forks n) < fuel)%nat -> fits n -> applied n l0 -> all_linked (n_forks n) ->
    exists n' l, choose_peak ok fuel waiting proof_ok n = Some n' /\ fits n' /\ applied n' l /\ Forall2 grows (n_forks n) (n_forks n') /\ view (n_forks n') = view (n_forks n) /\
      (all_votes (view (n_forks n)) < 2 ^ 32 -> l = [] /\ (forall l', ~ candidate ok root (view (n_forks n)) l') \/ best_chain ok root (view (n_forks n)) l).
  Proof.
    induction fuel as [|fuel IH]; intros n l0 CO F A AL; [lia|]. cbn [choose_peak]. pose proof F as [RT T US IR].
    pose proof (find_best_ok waiting n RT US IR T AL) as FB. destruct (find_best_fork waiting n) as (fs, best). destruct FB as (T1 & G1 & V1 & D1 & B1).
    set (n1 := set_forks n fs). assert (F1 : fits n1) by (constructor; auto). assert (A1 : applied n1 l0) by (apply (applied_grows n); auto).
    destruct best as [g|].
    - pose proof B1 as (IG & _ & (RG & AG & VG) & _).
      destruct (addr_eqb_spec (f_hash g) (state_hash n1)) as [E|NE].
      + exists n1, l0. split; [auto|]. split; [auto|]. split; [auto|]. split; [exact G1|]. split; [exact V1|]. rewrite <- V1. intros AV. right.
        rewrite (state_last _ _ (ap_main _ _ A1)) in E. assert (AP : Forall apart l0) by (apply (applied_apart n1); auto).
        assert (LG : last l0 root = f_block g) by (apply NC; [now apply last_U|apply (l_u _ _ (t_local _ T1 g IG))|symmetry; exact E]).
        apply (best_is_best fs g); auto. apply (applied_candidate n1); auto. intros ->. cbn [last] in LG. destruct (fork_apart fs g T1 IG) as (_ & X). congruence.
      + pose proof (switch_ok proof_ok n1 l0 g F1 A1 IG AG) as SW. destruct (switch ok proof_ok n1 g) as [n2|n2| |]; try contradiction.
        * destruct SW as (F2 & G2 & V2 & l & NL & A2 & LL). exists n2, l. cbn [n_forks set_forks n1] in *. split; [auto|]. split; [auto|]. split; [auto|]. split; [exact (grow_all_trans _ _ _ G1 G2)|]. split; [congruence|]. rewrite <- V1. intros AV. right.
          apply (best_is_best fs g); auto. rewrite <- V2. now apply (applied_candidate n2).
        * destruct SW as (F2 & G2 & V2 & (l2 & A2) & BD & _). cbn [n_forks set_forks n1] in G2, V2.
          (* back to where it was *)
          assert (BACK : exists n3, switch_back ok proof_ok (state_hash n1) n2 = Done n3 /\ fits n3 /\ applied n3 l0 /\ Forall2 grows (n_forks n2) (n_forks n3) /\ view (n_forks n3) = view (n_forks n2)).
          { unfold switch_back. rewrite (state_last _ _ (ap_main _ _ A1)). assert (AP : Forall apart l0) by (apply (applied_apart n1); auto).
            pose proof (follows_chained _ _ (ap_follows _ _ A1)) as CL.
            destruct (addr_eqb_spec (h_hash (last l0 root)) (state_hash n2)) as [E|NE2].
            - rewrite (state_last _ _ (ap_main _ _ A2)) in E. exists n2. split; auto. split; auto. split; [|auto using grow_all_refl]. assert (l2 = l0) as <-; auto. apply (applied_same n2); auto. apply F2.
            - destruct l0 as [|b l0'].
              + cbn [last]. destruct (find_fork (n_forks n2) (h_hash root)) as [x|] eqn:FX.
                { exfalso. apply find_fork_some in FX as (IX & EX). destruct (fork_apart _ x (fi_tree _ F2) IX) as (UX & NX). apply NX. now apply NC. }
                rewrite (fi_root _ F2), addr_eqb_refl. eexists. split; [reflexivity|]. split; [constructor; apply F2|]. split; [|auto using grow_all_refl].
                constructor; [|exact I|contradiction]. apply (revert_ok n2 [] l2); apply A2.
              + set (l0 := b :: l0') in *. set (p := last l0 root) in *. assert (IP : In p l0) by (apply last_in; discriminate).
                destruct (ap_forks _ _ A1 p IP) as (f & IF & BF & PF & VF & AF). cbn [n_forks set_forks n1] in IF. destruct (Forall2_in_l _ _ _ _ G2 IF) as (f2 & IF2 & GF).
                assert (FF : find_fork (n_forks n2) (h_hash p) = Some f2) by (rewrite <- BF, <- (g_block _ _ GF); apply (find_fork_in _ _ (t_nodup _ (fi_tree _ F2)) IF2)). rewrite FF.
                pose proof (switch_ok proof_ok n2 l2 f2 F2 A2 IF2 (g_all _ _ GF AF)) as SW. destruct (switch ok proof_ok n2 f2) as [n3|n3| |]; try contradiction.
                * destruct SW as (F3 & G3 & V3 & l3 & NL & A3 & LL). exists n3. split; auto. split; auto. split; auto. assert (l3 = l0) as <-; auto.
                  apply (applied_same n3); auto; [apply F3|]. rewrite LL, (g_block _ _ GF), BF. reflexivity.
                * exfalso. destruct SW as (_ & _ & _ & _ & _ & X). apply (X l0); auto; [rewrite (g_block _ _ GF); auto|]. intros x IX. destruct (ap_forks _ _ A1 x IX) as (y & IY & BY & PY & VY & AY).
                  destruct (Forall2_in_l _ _ _ _ G2 IY) as (y' & IY' & GY). exists y'. split; auto. split; [rewrite (g_block _ _ GY); auto|now apply (g_validated _ _ GY)]. }
          destruct BACK as (n3 & -> & F3 & A3 & G3 & V3).
          assert (G23 : Forall2 grows fs (n_forks n3)) by (exact (grow_all_trans _ _ _ G2 G3)).
          destruct (Forall2_in_l _ _ _ _ G23 IG) as (g3 & IG3 & GG3). assert (HG : f_hash g = f_hash g3) by (unfold f_hash; now rewrite (g_block _ _ GG3)). rewrite HG.
          assert (B3 : bad (n_forks n3) (f_block g3)) by (rewrite (g_block _ _ GG3); exact (bad_grows _ _ _ G3 BD)).
          destruct (invalid_ok n3 g3 F3 IG3 B3) as (F4 & G4 & V4). set (n4 := set_forks n3 _) in *.
          assert (G04 : Forall2 grows (n_forks n) (n_forks n4)) by (exact (grow_all_trans _ _ _ (grow_all_trans _ _ _ G1 G23) G4)).
          destruct (IH n4 l0) as (n5 & l5 & E5 & F5 & A5 & G5 & V5 & C5); auto.
          -- assert (X : (count (n_forks n4) < count fs)%nat).
             { apply (count_lt fs (n_forks n4) g); auto; [exact (grow_all_trans _ _ _ G23 G4)|]. intros f' IF' EF'. cbn [n4 set_forks n_forks] in IF'. apply in_modify in IF' as [(_ & X)|(y & _ & _ & ->)]; [congruence|reflexivity]. }
             pose proof (count_grows _ _ G1). lia.
          -- apply (applied_grows n3); auto.
          -- exact (linked_all_grows _ _ G04 AL).
          -- assert (VV : view (n_forks n4) = view (n_forks n)) by (cbn [n4 set_forks n_forks]; congruence). rewrite VV in *. exists n5, l5. split; auto. split; auto. split; auto. split; [exact (grow_all_trans _ _ _ G04 G5)|]. auto.
    - exists n1, l0. split; [auto|]. split; [auto|]. split; [auto|]. split; [exact G1|]. split; [exact V1|]. rewrite <- V1. intros AV. left.
      assert (NC' : forall l', ~ candidate ok root (view fs) l'). { intros l' C'. destruct (candidate_fork fs l' T1 C' AV D1) as (f & IF & _ & EF & _). apply (B1 f IF (in_map _ _ _ IF) EF). }
      split; auto. destruct l0 as [|b l0]; auto. exfalso. apply (NC' (b :: l0)). apply (applied_candidate n1); auto. discriminate.
  Qed.
  (** ** Blocks that arrive *)
  Lemma bad_incl fs fs' b : incl fs fs' -> bad fs b -> bad fs' b.
  Proof.
    intros G. induction 1 as [f I V P|b O|b p UP H D|b g I H B IH].
    - apply bad_proof; auto. - now apply bad_ok. - eapply bad_height; eauto. - eapply (bad_prev _ _ g); auto.
  Qed.
  Lemma local_incl fs fs' f : incl fs fs' -> local fs f -> local fs' f.
  Proof.
    intros G [L1 L2 L3 L4 L5 L6 L7 L8]. constructor; auto.
    - destruct L4 as [|(E & g & IG & EG)]; eauto 7.
    - intros X. eapply bad_incl; eauto.
    - intros X. destruct (L7 X) as (P & [Q|(g & IG & EG & AG)]); split; eauto 7.
  Qed.
  Lemma in_insert f fs x : In x (insert_fork f fs) <-> x = f \/ In x fs.
  Proof. induction fs as [|g fs IH]; cbn; [intuition congruence|]. destruct (_ <? _); cbn; rewrite ?IH; intuition congruence. Qed.
  Lemma insert_sorted f fs : StronglySorted height_le fs -> StronglySorted height_le (insert_fork f fs).
  Proof.
    induction 1 as [|g fs S IH A]; cbn; [repeat constructor|]. destruct (f_height f <? f_height g) eqn:E.
    - apply N.ltb_lt in E. constructor; [constructor; auto|]. constructor; [unfold height_le; lia|]. eapply Forall_impl; [|exact A]. unfold height_le. intros; lia.
    - apply N.ltb_ge in E. constructor; auto. apply Forall_forall. intros x I. apply in_insert in I as [->|I]; [exact E|]. rewrite Forall_forall in A. auto.
  Qed.
  Lemma insert_nodup f fs : NoDup (map f_hash fs) -> (forall g, In g fs -> f_hash g <> f_hash f) -> NoDup (map f_hash (insert_fork f fs)).
  Proof.
    induction fs as [|g fs IH]; cbn [insert_fork map]; intros N D; [repeat constructor; auto|]. inversion N as [|? ? NI N']; subst. destruct (_ <? _); cbn [map]; constructor; auto.
    - intros I. change (f_hash g :: map f_hash fs) with (map f_hash (g :: fs)) in I. apply in_map_iff in I as (x & E & I). apply (D x); auto.
    - intros I. apply in_map_iff in I as (x & E & I). apply in_insert in I as [->|I]; [apply (D g); cbn; auto|]. apply NI. rewrite <- E. now apply in_map.
    - apply IH; auto. intros x I. apply D. cbn; auto.
  Qed.
  Lemma add_block_ok b n l : fits n -> applied n l -> U b -> (h_height b = h_height root + 1 -> h_prev b = h_hash root) -> fits (add_block b n) /\ applied (add_block b n) l.
  Proof.
    intros F A UB FI. pose proof F as [RT T US IR]. unfold add_block. rewrite RT. destruct (h_height b <=? h_height root) eqn:E.
    - split; [constructor; cbn; auto|]. destruct A as [A1 A2 A3]. constructor; auto.
    - apply N.leb_gt in E. destruct (find_fork (n_forks n) (h_hash b)) as [f|] eqn:FF; auto.
      match goal with |- context [insert_fork ?x _] => set (f := x) end. assert (INC : incl (n_forks n) (insert_fork f (n_forks n))) by (intros x I; apply in_insert; auto).
      assert (T' : tree (insert_fork f (n_forks n))).
      { constructor.
        - apply insert_nodup; [apply T|]. intros g I. apply (find_fork_none _ _ g FF I).
        - apply insert_sorted. apply T.
        - intros x I. apply in_insert in I as [->|I]; [|eapply local_incl; eauto; now apply (t_local _ T)].
          constructor; cbn; auto; try discriminate. destruct (find_fork (n_forks n) (h_prev b)) as [g|] eqn:FG; auto. right. split; auto. apply find_fork_some in FG as (IG & EG). eauto. }
      split; [constructor; cbn; auto|]. destruct A as [A1 A2 A3]. constructor; cbn; auto. intros x I. destruct (A3 x I) as (g & IG & R). eauto.
  Qed.
  Lemma advance_ok w n l0 : fits n -> applied n l0 -> exists n' l, advance commit_delay max_history max_validators ok w n = Some n' /\ fits n' /\ applied n' l /\
      (all_votes (known n') < 2 ^ 32 -> l = [] /\ (forall l', ~ candidate ok root (known n') l') \/ best_chain ok root (known n') l).
  Proof.
    intros F A. pose proof F as [RT T US IR]. unfold advance.
    destruct (verify_ok (w_connected w) (w_check w) n RT T) as (T1 & G1 & L1). set (n1 := verify_block_proofs _ _ _ _ _ _) in *.
    assert (F1 : fits n1) by (constructor; auto). assert (A1 : applied n1 l0) by (apply (applied_grows n); auto). clearbody n1.
    destruct (votes_ok (w_best w) (w_late w) n1 T1) as (T2 & G2 & R2 & M2 & S2). set (n2 := verify_votes _ _ _) in *. clearbody n2. destruct F1 as [R1 _ US1 IR1].
    assert (F2 : fits n2) by (constructor; auto; congruence). assert (A2 : applied n2 l0) by (apply (applied_grows n1); auto).
    assert (CO : (count (n_forks n2) < S (length (n_forks n2)))%nat) by (pose proof (count_le (n_forks n2)); lia).
    destruct (choose_ok (w_waiting w) (w_proof_ok w) _ n2 l0 CO F2 A2 (linked_all_grows _ _ G2 L1)) as (n3 & l & E & F3 & A3 & G3 & V3 & B3).
    exists n3, l. split; auto. split; auto. split; auto. change (known n3) with (view (n_forks n3)). rewrite V3. exact B3.
  Qed.
  Lemma epoch_inv vote_ok n : epoch commit_delay max_history max_validators ok vote_ok U root older n -> fits n /\ exists l, applied n l.
  Proof.
    induction 1 as [O UR'|b n E (F & l & A) UB FI|best late v n E (F & l & A)|w n n' E (F & l & A) AD].
    - split.
      + constructor; cbn; auto; [|constructor; auto; eapply Forall_impl; [|exact O]; intros x X; apply X]. constructor; cbn; [constructor|constructor|contradiction].
      + exists []. constructor; cbn; auto. contradiction.
    - destruct (add_block_ok b n l F A UB FI). eauto.
    - unfold handle_vote. destruct (vote_ok v); [|eauto].
      set (n0 := mk_node (n_root n) (n_forks n) (n_main n) (n_stored n) (n_queue n ++ [v]) (n_published n)). pose proof F as [RT T US IR].
      destruct (votes_ok best late n0 T) as (T2 & G2 & R2 & M2 & S2). set (n2 := verify_votes _ _ _) in *. clearbody n2.
      split; [constructor; [rewrite R2; exact RT|exact T2|rewrite S2; exact US|rewrite S2; exact IR]|]. exists l. apply (applied_grows n); auto.
    - destruct (advance_ok w n l F A) as (n1 & l1 & E1 & F1 & A1 & _). rewrite AD in E1. injection E1 as <-. eauto.
  Qed.
End PROOFS.
