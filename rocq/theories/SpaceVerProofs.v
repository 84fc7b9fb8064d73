Require Import List Arith NArith ZArith Bool Lia Permutation Sorted.
From Verif Require Import SpaceModel SpaceSpec SpaceProofs.
Import ListNotations.
Open Scope N_scope.

(** *** The set of starting values *)
Lemma set_insert_in : forall x l z, In z (set_insert x l) <-> z = x \/ In z l.
Proof.
  induction l as [|y l IH]; intros z; cbn [set_insert].
  - cbn. intuition.
  - destruct (x <? y) eqn:E1; [cbn; intuition|]. destruct (y <? x) eqn:E2.
    + cbn [In]. rewrite IH. intuition.
    + apply N.ltb_ge in E1. apply N.ltb_ge in E2. assert (x = y) by lia. subst. cbn. intuition.
Qed.
Lemma set_insert_sorted : forall x l, StronglySorted N.lt l -> StronglySorted N.lt (set_insert x l).
Proof.
  induction 1 as [|y l H IH Hall]; cbn [set_insert]; [repeat constructor|].
  destruct (x <? y) eqn:E1.
  - apply N.ltb_lt in E1. constructor; [constructor; auto|]. constructor; auto. eapply Forall_impl; [|exact Hall]. intros. cbn in *. lia.
  - destruct (y <? x) eqn:E2; [|constructor; auto]. apply N.ltb_lt in E2. constructor; auto.
    rewrite Forall_forall in *. intros z Hz. apply set_insert_in in Hz. destruct Hz as [->|Hz]; auto.
Qed.
Lemma to_set_gen : forall l s, StronglySorted N.lt s -> let r := fold_left (fun s x => set_insert x s) l s in
  StronglySorted N.lt r /\ forall z, In z r <-> In z l \/ In z s.
Proof.
  induction l as [|x l IH]; intros s Hs; cbn [fold_left].
  - split; [assumption|]. cbn. intuition.
  - destruct (IH (set_insert x s) (set_insert_sorted x s Hs)) as [H1 H2]. split; [assumption|].
    intros z. rewrite H2, set_insert_in. cbn [In]. intuition.
Qed.
Lemma to_set_in : forall l z, In z (to_set l) <-> In z l.
Proof. intros. unfold to_set. destruct (to_set_gen l [] (SSorted_nil _)) as [_ H]. rewrite H. cbn. tauto. Qed.
Lemma sorted_nodup : forall l, StronglySorted N.lt l -> NoDup l.
Proof. induction 1 as [|a l H IH Hall]; constructor; auto. intros Hin. rewrite Forall_forall in Hall. specialize (Hall _ Hin). lia. Qed.
Lemma to_set_nodup : forall l, NoDup (to_set l).
Proof. intros. apply sorted_nodup. unfold to_set. now destruct (to_set_gen l [] (SSorted_nil _)). Qed.

Definition u32 (x : N) : Prop := x < 2 ^ 32.
Lemma candidates0 : forall x, u32 x -> candidates 0 x = [x].
Proof. intros x H. unfold candidates. cbn [N.to_nat seq map]. change (N.to_nat (2 ^ 0)) with 1%nat. cbn [seq map]. rewrite N.mul_1_r, N.mod_small by exact H. now rewrite N.lor_0_r. Qed.
Lemma flat_candidates0 : forall l, Forall u32 l -> flat_map (candidates 0) l = l.
Proof. induction 1 as [|x l Hx H IH]; cbn [flat_map]; [reflexivity|]. now rewrite candidates0, IH by assumption. Qed.
Lemma forall_incl : forall (Q : N -> Prop) a b, incl a b -> Forall Q b -> Forall Q a.
Proof. intros Q a b Hi H. rewrite Forall_forall in *. auto. Qed.

Section One.
  Variable Or : oracle.
  Variable srt : list meta -> list entry -> list entry.
  Variable arrange : list N -> list N.
  Hypothesis Hsrt : sorts srt.

  Lemma compute0 : forall xs id k, Forall u32 xs -> 8 <= k <= 32 ->
    compute Or srt arrange xs id k 0 = compute_full Or srt k (to_set xs) (map fst (map (f1 Or k id) (to_set xs))) (map snd (map (f1 Or k id) (to_set xs))).
  Proof.
    intros xs id k Hx Hk. unfold compute.
    replace (k <? 8) with false by (symmetry; apply N.ltb_ge; lia). replace (32 <? k) with false by (symmetry; apply N.ltb_ge; lia).
    replace (k <? 0) with false by (symmetry; apply N.ltb_ge; lia). cbn [orb]. change (5 <=? 0) with false. cbv iota.
    rewrite flat_candidates0; [reflexivity|]. eapply forall_incl; [|exact Hx]. intros z Hz. now apply to_set_in.
  Qed.
  Lemma compute_ksize : forall xs id k xbits r, compute Or srt arrange xs id k xbits = Some r -> 8 <= k <= 32 /\ xbits <= k.
  Proof.
    intros xs id k xbits r H. unfold compute in H.
    destruct (k <? 8) eqn:E1; [discriminate|]. destruct (32 <? k) eqn:E2; [discriminate|]. destruct (k <? xbits) eqn:E3; [discriminate|].
    apply N.ltb_ge in E1. apply N.ltb_ge in E2. apply N.ltb_ge in E3. lia.
  Qed.

  Lemma verify_sound : forall xs c id pf po k hf q, Forall u32 xs -> verify Or srt arrange xs c id pf po k hf = Some q ->
    8 <= k <= 32 /\ exists y m, spells (f1 Or k id) (f2 Or k) 8 xs y m /\
      first_y c k <= y < first_y c k + 2 ^ pf /\
      (forall l y' m', spells (f1 Or k id) (f2 Or k) 8 l y' m' -> incl l xs -> m' = m) /\
      (if hf then check_post_filter Or c (firstn N_META_OUT m) po = true /\ q = o_proof Or c xs else q = o_quality Or c (firstn N_META_OUT m)).
  Proof.
    intros xs c id pf po k hf q Hx H. unfold verify in H.
    destruct (negb _); [discriminate|].
    destruct (compute Or srt arrange xs id k 0) as [[[|[y m] [|]] xo]|] eqn:EC; try discriminate.
    destruct (compute_ksize _ _ _ _ _ EC) as [Hk _]. split; [exact Hk|].
    rewrite compute0 in EC by assumption.
    destruct (compute_full_one Or srt Hsrt k id (proj2 Hk) (to_set xs) _ _ _ (to_set_nodup xs) EC) as (m' & S & Em & _ & Hall).
    destruct ((y <? first_y c k) || (first_y c k + 2 ^ pf <=? y)) eqn:EW; [discriminate|].
    apply orb_false_iff in EW. destruct EW as [W1 W2]. apply N.ltb_ge in W1. apply N.leb_gt in W2.
    destruct (negb (same_list xo xs)) eqn:EO; [discriminate|]. apply negb_false_iff, same_list_iff in EO. subst xo m.
    exists y, m'. split; [exact S|]. split; [lia|]. split.
    - intros l y' m'' Hl Hi. eapply Hall; eauto. intros z Hz. apply to_set_in. auto.
    - destruct hf; [|now injection H]. destruct (check_post_filter Or c (firstn N_META_OUT m') po); [|discriminate]. split; [reflexivity|now injection H].
  Qed.

  Lemma verify_complete : forall xs c id pf po k (hf : bool) y m, Forall u32 xs -> 8 <= k <= 32 ->
    spells (f1 Or k id) (f2 Or k) 8 xs y m -> only_proof (f1 Or k id) (f2 Or k) 8 xs ->
    first_y c k <= y < first_y c k + 2 ^ pf ->
    (if hf then check_post_filter Or c (firstn N_META_OUT m) po = true else True) ->
    verify Or srt arrange xs c id pf po k hf = Some (if hf then o_proof Or c xs else o_quality Or c (firstn N_META_OUT m)).
  Proof.
    intros xs c id pf po k hf y m Hx Hk S Hu W Hf. unfold verify.
    rewrite (spells_length _ _ _ _ _ _ S). change (2 ^ (N_TABLE - 1))%nat with (2 ^ 8)%nat. rewrite Nat.eqb_refl. cbn [negb].
    rewrite compute0 by assumption.
    rewrite (compute_full_only Or srt Hsrt k id (proj2 Hk) (to_set xs) xs y m (to_set_nodup xs) S).
    - replace (y <? first_y c k) with false by (symmetry; apply N.ltb_ge; lia).
      replace (first_y c k + 2 ^ pf <=? y) with false by (symmetry; apply N.leb_gt; lia). cbn [orb].
      rewrite (proj2 (same_list_iff xs xs) eq_refl). cbn [negb]. destruct hf; [now rewrite Hf|reflexivity].
    - intros z Hz. now apply to_set_in.
    - intros l' y' m' S' Hi. eapply Hu; eauto. intros z Hz. now apply to_set_in, Hi.
  Qed.

  Lemma first_y_mod : forall c k, first_y c k = c mod 2 ^ 32 mod 2 ^ k.
  Proof. intros. unfold first_y, kmask. replace (2 ^ k - 1) with (N.ones k) by (rewrite N.ones_equiv; lia). apply N.land_ones. Qed.

  Theorem accepted_is_good : forall P p c d h, Forall u32 (pf_xs p) -> verify_proof Or srt arrange P p c d h = true ->
    exists y m, good_proof Or P p c d h y m /\ forall l y' m', made_of Or p 8 l y' m' -> incl l (pf_xs p) -> m' = m.
  Proof.
    intros P p c d h Hx H. unfold verify_proof in H. rewrite !andb_true_iff in H. destruct H as [[[[[[[H1 H2] H3] H4] H5] H6] H7] H8].
    apply N.ltb_lt in H1. apply N.eqb_eq in H3. apply N.eqb_eq in H4. unfold proof_validate in H5. apply N.eqb_eq in H5.
    unfold check_plot_filter in H6. apply N.eqb_eq in H6. rewrite N.shiftr_div_pow2 in H6. unfold get_proof_score in H8. apply N.eqb_eq in H8.
    unfold verify_proof_impl in H7.
    destruct ((pf_ksize p <? min_ksize P) || (max_ksize P <? pf_ksize p)) eqn:EK; [discriminate|].
    apply orb_false_iff in EK. destruct EK as [K1 K2]. apply N.ltb_ge in K1. apply N.ltb_ge in K2.
    destruct (verify Or srt arrange _ _ _ _ _ _ _) as [q|] eqn:EV; [|discriminate].
    destruct (verify_sound _ _ _ _ _ _ _ _ Hx EV) as (Hk & y & m & S & W & Hall & Hq).
    exists y, m. split; [|exact Hall].
    unfold check_proof_threshold in H7. destruct (d =? 0); [discriminate|]. apply N.ltb_lt in H7. rewrite N.shiftr_div_pow2 in H7.
    rewrite first_y_mod in W.
    constructor; auto; try lia.
    - cbv zeta. destruct (hardfork1_height P <=? h).
      + destruct Hq as [Hp ->]. unfold check_post_filter in Hp. apply N.eqb_eq in Hp. rewrite N.shiftr_div_pow2 in Hp, H7. auto.
      + now subst q.
    - now rewrite <- H8, H3.
  Qed.

  Theorem good_is_accepted : forall P p c d h y m, Forall u32 (pf_xs p) -> 8 <= pf_ksize p <= 32 ->
    good_proof Or P p c d h y m -> only_proof (f1 Or (pf_ksize p) (pf_plot_id p)) (f2 Or (pf_ksize p)) 8 (pf_xs p) -> verify_proof Or srt arrange P p c d h = true.
  Proof.
    intros P p c d h y m Hx Hk [G1 [G2 G2'] G3 G4 G5 G6 G7 G8 G9] Hu. unfold verify_proof. rewrite !andb_true_iff.
    unfold made_of in G6. cbv zeta in G7, G8. rewrite <- first_y_mod in G7.
    repeat split.
    - now apply N.ltb_lt.
    - unfold proof_is_valid. rewrite andb_true_iff, N.ltb_lt, Nat.leb_le. split; [lia|]. rewrite (spells_length _ _ _ _ _ _ G6). change (2 ^ 8)%nat with 256%nat. lia.
    - now apply N.eqb_eq.
    - now apply N.eqb_eq.
    - unfold proof_validate. apply N.eqb_eq. now symmetry.
    - unfold check_plot_filter. apply N.eqb_eq. now rewrite N.shiftr_div_pow2.
    - unfold verify_proof_impl.
      replace (pf_ksize p <? min_ksize P) with false by (symmetry; apply N.ltb_ge; lia).
      replace (max_ksize P <? pf_ksize p) with false by (symmetry; apply N.ltb_ge; lia). cbn [orb].
      rewrite (verify_complete (pf_xs p) (o_plot Or (pf_plot_id p) c) (pf_plot_id p) (plot_filter P) (post_filter P) (pf_ksize p) (hardfork1_height P <=? h) y m); auto.
      + unfold check_proof_threshold. replace (d =? 0) with false by (symmetry; apply N.eqb_neq; lia). apply N.ltb_lt. rewrite N.shiftr_div_pow2.
        destruct (hardfork1_height P <=? h); [|exact G8]. rewrite N.shiftr_div_pow2. apply G8.
      + destruct (hardfork1_height P <=? h); [|exact I]. unfold check_post_filter. rewrite N.shiftr_div_pow2. apply N.eqb_eq, G8.
    - unfold get_proof_score. apply N.eqb_eq. now rewrite G1.
  Qed.
End One.

Theorem verdict_agrees : forall Or srt srt' arr arr' P p c d h, sorts srt -> sorts srt' -> Forall u32 (pf_xs p) ->
  distinct_data (f1 Or (pf_ksize p) (pf_plot_id p)) (f2 Or (pf_ksize p)) 8 (pf_xs p) ->
  verify_proof Or srt arr P p c d h = verify_proof Or srt' arr' P p c d h.
Proof.
  assert (G : forall Or srt srt' arr arr' P p c d h, sorts srt -> sorts srt' -> Forall u32 (pf_xs p) ->
    distinct_data (f1 Or (pf_ksize p) (pf_plot_id p)) (f2 Or (pf_ksize p)) 8 (pf_xs p) ->
    verify_proof Or srt arr P p c d h = true -> verify_proof Or srt' arr' P p c d h = true).
  { intros Or srt srt' arr arr' P p c d h Hs Hs' Hx Hd H.
    assert (Hk : 8 <= pf_ksize p <= 32).
    { unfold verify_proof in H. rewrite !andb_true_iff in H. destruct H as [[_ H] _]. unfold verify_proof_impl in H. destruct (_ || _); [discriminate|].
      destruct (verify Or srt arr _ _ _ _ _ _ _) as [q|] eqn:EV; [|discriminate]. now destruct (verify_sound Or srt arr Hs _ _ _ _ _ _ _ _ Hx EV). }
    destruct (accepted_is_good Or srt arr Hs P p c d h Hx H) as (y & m & HG & Hall).
    eapply good_is_accepted; eauto. intros l y' m' Sl Hi. pose proof (Hall _ _ _ Sl Hi) as ->.
    eapply Hd; [exact Hi|apply incl_refl|exact Sl|]. exact (g_tree _ _ _ _ _ _ _ _ HG). }
  intros. destruct (verify_proof Or srt arr P p c d h) eqn:E.
  - symmetry. eapply G; [| | | |exact E]; eauto.
  - destruct (verify_proof Or srt' arr' P p c d h) eqn:E'; [|reflexivity]. rewrite <- E. eapply G; [| | | |exact E']; eauto.
Qed.
