(** Proofs for ReorgModel.v: what holds of every history if no block lies about its height *)
Require Import List Arith NArith Bool Lia.
Import ListNotations.
From Verif Require Import DbModel DbSpec ReorgModel ReorgSpec ReorgProofs ReorgInvProofs ReorgRunProofs ReorgBackProofs ReorgDeepProofs ReorgEndProofs.
Open Scope N_scope.

Section REORG6.
  Context {K V C : Type} (K_eqb : K -> K -> bool).
  Variable valid : view K V -> block -> option C.
  Variable effects : view K V -> block -> option C -> list (K * V).
  Variable genesis : block.
  Variable commit_delay : N.
  Variable U : block -> Prop.
  Hypothesis GOOD : good_blocks U genesis.
  Hypothesis HON : honest U.

  Notation scratch := (scratch K_eqb valid effects).
  Notation chain := (chain K_eqb valid effects genesis).
  Notation uchain := (uchain K_eqb valid effects genesis U).
  Notation ctx_for := (ctx_for K_eqb valid effects).
  Notation the_view := (the_view K V K_eqb).
  Notation db := (db K V).
  Notation node := (node K V C).
  Notation fork := (fork C).
  Notation find_fork := (find_fork K V C).
  Notation find_stored := (find_stored K V C).
  Notation get_block := (get_block K V C).
  Notation n_root := (n_root K V C).
  Notation n_forks := (n_forks K V C).
  Notation n_db := (n_db K V C).
  Notation n_stored := (n_stored K V C).
  Notation n_state := (n_state K V C).
  Notation n_rank := (n_rank K V C).
  Notation n_trace := (n_trace K V C).
  Notation f_block := (f_block C).
  Notation f_validated := (f_validated C).
  Notation f_ctx := (f_ctx C).
  Notation apply := (apply K V C K_eqb effects).
  Notation revert := (revert K V C).
  Notation write_block := (write_block K V C).
  Notation validate := (validate K V C K_eqb valid).
  Notation set_forks := (set_forks K V C).
  Notation set_root := (set_root K V C).
  Notation mk_node := (mk_node K V C).

  Notation inv := (inv K_eqb valid effects genesis U).
  Notation base := (base K_eqb valid effects genesis U).
  Notation fork_ok := (fork_ok K_eqb valid effects genesis U).
  Notation disk_ok := (disk_ok K_eqb valid effects genesis U).
  Notation outcome := (outcome K V C).
  Notation apply_line := (apply_line K V C K_eqb valid effects).
  Notation apply_root := (apply_root K V C K_eqb valid effects).
  Notation same_forks := (@same_forks K V C).
  Notation add_fork := (add_fork K V C).
  Notation reset := (reset K V C K_eqb effects genesis commit_delay).
  Notation restore := (restore K V C K_eqb valid effects genesis commit_delay).
  Notation switch := (switch K V C K_eqb valid effects genesis commit_delay).
  Notation walk_line := (walk_line K V C).
  Notation fork_line := (fork_line K V C).
  Notation start := (start K V C K_eqb effects genesis commit_delay).
  Notation step := (step K V C K_eqb valid effects genesis commit_delay).
  Notation run := (run K V C K_eqb valid effects genesis commit_delay).

  Notation ok := (ok K_eqb valid effects genesis U).
  Notation blocks_in := (@blocks_in K V C).
  Notation healthy := (@healthy K V C).
  Notation go_back := (go_back K_eqb valid effects genesis commit_delay).
  Notation or_genesis := (or_genesis genesis).


  Notation cover := (@cover K V C).
  Notation high := (@high K V C U).
  Notation full := (full K_eqb valid effects genesis U).
  Notation fine := (fine K_eqb valid effects genesis U).


  Lemma full_same n n' ch : full n ch -> inv n' ch -> n_root n' = n_root n -> map f_block (n_forks n') = map f_block (n_forks n) -> full n' ch.
  Proof.
    intros (J & NE & CO & HI) J' R F. split; auto. split; auto. split; [|eapply high_same; eauto]. apply (cover_same n n' ch); auto. rewrite F. apply incl_refl.
  Qed.
  Lemma fresh_full n ch : full n ch -> full (fresh_trace K V C n) ch.
  Proof. intros F. eapply full_same; eauto. apply inv_fresh, F. Qed.
  Lemma add_full b n ch : full n ch -> U b -> full (add_block K V C b n) ch.
  Proof.
    intros FU Ub. pose proof FU as (J & NE & CO & HI). pose proof (add_block_inv K_eqb valid effects genesis U GOOD b n ch J Ub) as J'. unfold add_block in *. destruct (n_root n) as [r|] eqn:R; auto.
    destruct (N.leb_spec (b_height b) (b_height r)) as [L|L].
    - eapply full_same; eauto; unfold ReorgModel.write_block; destruct (find_stored n (b_hash b)); auto.
    - destruct (add_fork_inv K_eqb valid effects genesis U GOOD b n ch J Ub) as (_ & R' & I' & _). split; auto. split; auto. split.
      + apply (cover_same n _ ch); auto.
      + intros r0 E. rewrite R', R in E. inversion E; subst r0. destruct (HI r R) as (H1 & H2). split; auto. intros x I. unfold ReorgModel.add_fork in I. rewrite R in I.
        destruct (_ <=? _); auto. destruct (find_fork n (b_hash b)); auto. cbn in I. destruct I as [<-|I]; auto.
  Qed.
  Lemma commit_full keep b l n ch : full n ch -> fork_line n None = Some (b :: l) -> full (commit K V C keep b n) ch.
  Proof.
    intros FU FL. pose proof FU as (J & NE & CO & HI). pose proof (commit_inv K_eqb valid effects genesis U GOOD keep b n ch J) as J'. unfold commit in *. destruct (n_root n) as [r|] eqn:R; auto.
    destruct (N.eqb_spec (b_prev b) (b_hash r)) as [E|E]; auto. destruct (HI r R) as (Ur & H2).
    assert (FS : fork_line n (find_fork n (n_state n)) = Some (b :: l) /\ exists f, find_fork n (n_state n) = Some f).
    { unfold ReorgModel.fork_line in FL |- *. rewrite R in FL |- *. destruct (_ =? _) in FL; [discriminate|]. destruct (find_fork n (n_state n)); [split; eauto|destruct (S (length (n_forks n))); discriminate]. }
    destruct FS as (FS & f & Ff). rewrite Ff in FS. pose proof (line_first n r f b l R FS) as HB. pose proof (fork_line_in n f _ (proj1 (fork_found _ _ _ Ff)) FS) as BI.
    assert (Ub : U b) by (apply (inv_forks_U K_eqb valid effects genesis U n ch b J); apply BI; cbn; auto).
    match goal with |- context [fold_left ?g ?gone n] => set (n1 := fold_left g gone n) in *; assert (F1 : n_forks n1 = n_forks n) end.
    { unfold n1. match goal with |- context [fold_left _ ?g n] => generalize g end. intros g. clear. revert n. induction g as [|x g IH]; intros n; cbn [fold_left]; auto. rewrite IH. destruct (keep _); auto.
      unfold ReorgModel.write_block. destruct (find_stored n _); auto. }
    split; auto. split; auto. split.
    - intros r0 E0 Ib x Ix L. cbn in E0. inversion E0; subst r0. cbn. rewrite F1.
      assert (Ir : In r ch).
      { apply in_split in Ib. destruct Ib as (m1 & m2 & Ec). pose proof (B_chain _ _ _ _ _ _ _ (proj1 J)) as X. rewrite Ec in X. apply uchain_suffix in X. destruct m2 as [|q m2].
        - destruct X as ((E1 & _) & _). destruct GOOD as (_ & _ & _ & _ & G0 & _). subst b. lia.
        - destruct X as (((E1 & _) & _) & FX). assert (q = r); [|subst q; rewrite Ec; apply in_app_iff; cbn; auto]. apply (Uinj genesis U GOOD); auto; [inversion FX as [|? ? ? Q]; now inversion Q|congruence]. }
      assert (I : In x (map f_block (n_forks n))) by (apply (CO r R Ir x Ix); lia). apply in_map_iff in I. destruct I as (g & Eg & Ig). apply in_map_iff. exists g. split; auto. apply filter_In. split; auto.
      rewrite Eg. destruct (N.eqb_spec (b_height x) (b_height b)); auto. lia.
    - intros r0 E0. cbn in E0. inversion E0; subst r0. split; auto. intros x I. cbn in I. rewrite F1 in I. apply in_map_iff in I. destruct I as (g & <- & I). apply filter_In in I. destruct I as (I & Q).
      pose proof (H2 _ (in_map f_block _ _ I)). destruct (N.eqb_spec (b_height (f_block g)) (b_height b)); [discriminate|]. lia.
  Qed.
  Lemma start_fine d v stored ch : uchain ch -> d = scratch ch -> incl ch stored -> Forall U stored ->
    exists n', start d v stored = Some n' /\ full n' (or_genesis (cut v ch)) /\ healthy n' (or_genesis (cut v ch)).
  Proof.
    intros X E IC US. destruct (start_ok K_eqb valid effects genesis commit_delay U GOOD d v stored ch X E IC US) as (n' & S & J & H). exists n'. split; auto. split; auto. split; auto.
    split; [destruct (cut v ch); discriminate|]. split; [apply healthy_cover; auto|]. unfold ReorgModel.start in S. cbn zeta in S.
    destruct (reset _) as [m|m|] eqn:RE in S; try discriminate. inversion S; subst m. eapply reset_high; eauto. apply (B_stored _ _ _ _ _ _ _ (proj1 J)).
  Qed.
  Lemma step_fine n o n' : fine n -> match o with Add b => U b | _ => True end -> step n o = Some n' -> fine n'.
  Proof.
    intros (ch & FU) A E. pose proof (fresh_full n ch FU) as F1. destruct o as [b|h pok|keep|i v]; cbn [ReorgModel.step] in E.
    - inversion E; subst. exists ch. apply add_full; auto.
    - destruct (find_fork (fresh_trace K V C n) h) as [f|] eqn:F; [|inversion E; subst; exists ch; auto]. destruct (fork_found _ _ _ F) as (IF & _).
      pose proof (switch_fine K_eqb valid effects genesis commit_delay U GOOD HON pok 2 f _ (ex_intro _ ch F1) IF) as S. destruct (switch 2 pok f _) as [m|m|]; cbn [ReorgEndProofs.out_fine] in S; [inversion E; subst; auto| |discriminate].
      inversion E; subst. destruct S as (c & S). exists c. eapply full_same; eauto; [|cbn; apply modify_blocks; auto]. apply inv_forks; [apply S|]. apply modify_ok; [|apply S]. intros g G _. exact G.
    - destruct (fork_line _ None) as [[|b l]|] eqn:FL; inversion E; subst; exists ch; auto. eapply commit_full; eauto.
    - assert (S : forall d st, disk_ok (d, st) -> start d v st = Some n' -> fine n').
      { intros d st (c & X & E1 & IC & US) S. cbn in E1, IC, US. destruct (start_fine d v st c X E1 IC US) as (m & S1 & S2 & _). assert (m = n') by congruence. subst. eexists. exact S2. }
      destruct (nth_error (n_trace n) i) as [(d, st)|] eqn:NT.
      + eapply S; eauto. apply nth_error_In in NT. exact (proj1 (Forall_forall _ _) (B_trace _ _ _ _ _ _ _ (proj1 (proj1 FU))) _ NT).
      + eapply S; eauto. eapply base_disk. apply FU.
  Qed.
  Lemma run_fine l : forall n n', fine n -> arrive U l -> run n l = Some n' -> fine n'.
  Proof.
    induction l as [|o l IH]; intros n n' O A E; cbn [ReorgModel.run] in E; [inversion E; subst; auto|]. inversion A; subst. destruct (step n o) as [n1|] eqn:S; [|discriminate].
    eapply IH; [|eauto|eauto]. eapply step_fine; eauto.
  Qed.
  Lemma node0_fine n : node0 K V C K_eqb effects genesis commit_delay = Some n -> fine n.
  Proof.
    intros E. assert (X : uchain []) by (split; cbn; auto). destruct (start_fine (db0 K V) 0 [] [] X eq_refl (fun _ Q => Q) (Forall_nil _)) as (n' & E' & F & _).
    assert (n' = n) by (unfold node0 in E; congruence). subst. eexists. exact F.
  Qed.

  Lemma rooted_in n ch r : full n ch -> rooted n r -> In r ch.
  Proof.
    intros (J & _ & _ & HI) (R & H). destruct (HI r R) as (Ur & _). rewrite (B_db _ _ _ _ _ _ _ (proj1 J)), (scratch_hash _ _ _ _ _ GOOD) in H by apply J.
    destruct (at_height (b_height r) ch) as [x|] eqn:A; cbn in H; [|discriminate]. destruct (at_height_in _ _ _ A) as (I & _). assert (x = r); [|subst; auto].
    apply (Uinj genesis U GOOD); auto; [eapply (chain_U K_eqb valid effects genesis U); eauto|congruence].
  Qed.
  Lemma in_rooted n ch r : inv n ch -> n_root n = Some r -> In r ch -> rooted n r.
  Proof. intros J R I. split; auto. rewrite (B_db _ _ _ _ _ _ _ (proj1 J)), (scratch_hash _ _ _ _ _ GOOD) by apply J. now rewrite (in_at_height _ _ _ _ _ GOOD r ch) by (auto; apply J). Qed.
  Lemma same_state n n' ch ch' : inv n ch -> inv n' ch' -> n_state n = n_state n' -> ch = ch'.
  Proof. intros J J' E. apply (chain_same K_eqb valid effects genesis U GOOD); [apply J|apply J'|]. rewrite <- (proj1 (proj2 J)), <- (proj1 (proj2 J')). exact E. Qed.
End REORG6.
