Require Import List Arith NArith ZArith Bool Lia Permutation Sorted.
From Verif Require Import BitsLib SpaceModel SpaceSpec SpaceProofs SpaceVerProofs SpaceHarvProofs.
Import ListNotations.
Open Scope N_scope.

(** *** The search finds what it should *)
(** the table of values is sorted and every park can be read *)
Record sorted_table (pl : plot) (T : N -> N) : Prop := mk_sorted {
  so_head : forall n, n < cdivN (h_num_entries_y (p_header pl)) (h_park_size_y (p_header pl)) -> p_head pl n <> None /\ p_deltas pl n <> None;
  so_value : forall i, i < h_num_entries_y (p_header pl) -> stored pl i = Some (T i);
  so_sorted : forall i j, i <= j -> j < h_num_entries_y (p_header pl) -> T i <= T j }.

Lemma pick_all : forall yb ye num ys i out e, pick yb ye num i ys = (out, e) ->
  (forall t y, nth_error ys t = Some y -> (forall s v, (s <= t)%nat -> nth_error ys s = Some v -> v < ye) -> yb <= y < ye -> i + N.of_nat t < num -> In (i + N.of_nat t) out) /\
  (e = true -> exists t y, nth_error ys t = Some y /\ ye <= y) /\ (e = false -> forall t y, nth_error ys t = Some y -> y < ye).
Proof.
  induction ys as [|y ys IH]; intros i out e H; cbn [pick] in H.
  - injection H as <- <-. split; [|split].
    + intros [|t] y Ht; discriminate.
    + discriminate.
    + intros _ [|t] y Ht; discriminate.
  - destruct (ye <=? y) eqn:E1.
    + injection H as <- <-. apply N.leb_le in E1. split; [|split].
      * intros t v Ht Hs _ _. assert (y < ye) by (apply (Hs O y); [lia|reflexivity]). lia.
      * intros _. exists O, y. auto.
      * discriminate.
    + apply N.leb_gt in E1. destruct (pick yb ye num (i + 1) ys) as [out' e'] eqn:EP. injection H as <- <-.
      destruct (IH _ _ _ EP) as (A & B & C). split; [|split].
      * intros [|t] v Ht Hs Hw Hn.
        -- cbn in Ht. injection Ht as <-. rewrite N.add_0_r in *. replace ((yb <=? y) && (i <? num)) with true.
           ++ now left.
           ++ symmetry. apply andb_true_iff. split; [apply N.leb_le|apply N.ltb_lt]; lia.
        -- cbn [nth_error] in Ht. assert (G : In (i + 1 + N.of_nat t) out').
           { apply (A t v Ht); auto; [|lia]. intros s w Hst Hw'. apply (Hs (S s) w); [lia|exact Hw']. }
           replace (i + N.of_nat (S t)) with (i + 1 + N.of_nat t) by lia. destruct (_ && _); [now right|exact G].
      * intros He. destruct (B He) as (t & v & Ht & Hv). exists (S t), v. auto.
      * intros He [|t] v Ht; [cbn in Ht; injection Ht as <-; exact E1|]. exact (C He t v Ht).
Qed.

Lemma cdivN_lt : forall n ps k, 0 < ps -> k < cdivN n ps <-> k * ps < n.
Proof.
  intros n ps k H. unfold cdivN. split; intros E.
  - assert (k * ps + ps <= (n + ps - 1) / ps * ps) by (replace (k * ps + ps) with ((k + 1) * ps) by lia; apply N.mul_le_mono_r; lia).
    pose proof (N.mul_div_le (n + ps - 1) ps ltac:(lia)). lia.
  - apply N.lt_le_trans with (k + 1); [lia|]. apply N.div_le_lower_bound; [lia|]. lia.
Qed.

Lemma search_complete : forall pl T yb ye, parks_ok pl -> sorted_table pl T ->
  (forall n, 0 < n -> n * h_park_size_y (p_header pl) < h_num_entries_y (p_header pl) -> ~ (yb <= T (n * h_park_size_y (p_header pl)) < ye)) ->
  forall n hb park out, search n pl yb ye (cdivN (h_num_entries_y (p_header pl)) (h_park_size_y (p_header pl))) hb park = Some out -> (0 <= park)%Z ->
  forall i, i < h_num_entries_y (p_header pl) -> yb <= T i < ye -> (hb = true -> Z.to_N park * h_park_size_y (p_header pl) <= i) -> 0 < cdivN (h_num_entries_y (p_header pl)) (h_park_size_y (p_header pl)) ->
    (hb = false -> (park < Z.of_N (cdivN (h_num_entries_y (p_header pl)) (h_park_size_y (p_header pl))))%Z) -> In i out.
Proof.
  intros pl T yb ye Hok ST Hfirst. set (num := h_num_entries_y (p_header pl)) in *. set (ps := h_park_size_y (p_header pl)) in *.
  assert (Hps : 0 < ps) by exact (proj1 Hok).
  induction n as [|n IH]; intros hb park out H Hp i Hi Hw Hb Hn Hlt; cbn [search] in H.
  all: destruct ((park <? 0)%Z || (Z.of_N (cdivN num ps) <=? park)%Z) eqn:EB.
  1,3: exfalso; apply orb_true_iff in EB; destruct EB as [EB|EB]; [apply Z.ltb_lt in EB; lia|apply Z.leb_le in EB];
    destruct hb; [|specialize (Hlt eq_refl); lia]; specialize (Hb eq_refl);
    assert (~ (Z.to_N park < cdivN num ps)) by lia; rewrite cdivN_lt in H0 by exact Hps; lia.
  1: discriminate.
  apply orb_false_iff in EB. destruct EB as [_ EB]. apply Z.leb_gt in EB.
  assert (Hpk : Z.to_N park < cdivN num ps) by lia.
  assert (Hp0 : Z.to_N park * ps < num) by (now apply cdivN_lt).
  destruct (so_head _ _ ST _ Hpk) as [HH HD].
  destruct (p_head pl (Z.to_N park)) as [y|] eqn:EH; [|congruence].
  destruct (p_deltas pl (Z.to_N park)) as [ds|] eqn:ED; [|congruence].
  assert (Hval : forall t v, nth_error (y_list y ds) t = Some v -> Z.to_N park * ps + N.of_nat t < num -> T (Z.to_N park * ps + N.of_nat t) = v).
  { intros t v Ht Hl. pose proof (stored_at pl _ _ _ _ _ Hok EH ED Ht) as E. fold ps in E. rewrite (so_value _ _ ST _ Hl) in E. now injection E. }
  assert (Hy : T (Z.to_N park * ps) = y).
  { rewrite <- (N.add_0_r (Z.to_N park * ps)). apply (Hval O y); [reflexivity|]. rewrite N.add_0_r. exact Hp0. }
  assert (Hlen : N.of_nat (length (y_list y ds)) = ps).
  { unfold y_list. cbn [length]. rewrite undelta_length. pose proof (proj2 Hok _ _ ED). fold ps in H0. lia. }
  destruct (ye <=? y) eqn:E1.
  - apply N.leb_le in E1. destruct (hb || (park =? 0)%Z) eqn:E2.
    + exfalso. assert (Z.to_N park * ps <= i).
      { destruct hb; [auto|]. cbn [orb] in E2. apply Z.eqb_eq in E2. subst park. cbn. lia. }
      pose proof (so_sorted _ _ ST _ _ H0 Hi). lia.
    + apply orb_false_iff in E2. destruct E2 as [-> E2]. apply Z.eqb_neq in E2.
      eapply IH; [exact H| |exact Hi|exact Hw|discriminate|exact Hn|]; [lia|]. intros _. lia.
  - apply N.leb_gt in E1.
    assert (Hge : Z.to_N park * ps <= i).
    { destruct hb; [auto|]. destruct (N.eq_dec (Z.to_N park) 0) as [->|N0]; [lia|].
      destruct (N.le_gt_cases (Z.to_N park * ps) i) as [L|L]; [exact L|]. exfalso.
      pose proof (so_sorted _ _ ST i _ (N.lt_le_incl _ _ L) Hp0). rewrite Hy in H0.
      apply (Hfirst (Z.to_N park)); [lia|exact Hp0|]. rewrite Hy. lia. }
    fold num in H. fold ps in H.
    destruct (pick yb ye num (Z.to_N park * ps) (y_list y ds)) as [o e] eqn:EP.
    destruct (pick_all _ _ _ _ _ _ _ EP) as (PA & PB & PC).
    set (t := N.to_nat (i - Z.to_N park * ps)).
    assert (Hit : i = Z.to_N park * ps + N.of_nat t) by (unfold t; lia).
    assert (Hin : (t < length (y_list y ds))%nat -> In i o).
    { intros Ht. destruct (nth_error (y_list y ds) t) as [v|] eqn:EV; [|apply nth_error_None in EV; lia].
      assert (T i = v) by (rewrite Hit; apply Hval; [exact EV|rewrite <- Hit; exact Hi]). subst v.
      rewrite Hit. apply (PA t (T i) EV); [|exact Hw|rewrite <- Hit; exact Hi].
      intros s v Hs Hv. assert (Hl : Z.to_N park * ps + N.of_nat s < num) by lia.
      rewrite <- (Hval s v Hv Hl). pose proof (so_sorted _ _ ST (Z.to_N park * ps + N.of_nat s) i ltac:(lia) Hi). lia. }
    destruct (le_lt_dec (length (y_list y ds)) t) as [L|L].
    + destruct e.
      * exfalso. destruct (PB eq_refl) as (s & v & Hs & Hv). assert (s < length (y_list y ds))%nat by (apply nth_error_Some; rewrite Hs; discriminate).
        assert (Hl : Z.to_N park * ps + N.of_nat s < num) by lia. rewrite <- (Hval s v Hs Hl) in Hv.
        pose proof (so_sorted _ _ ST (Z.to_N park * ps + N.of_nat s) i ltac:(lia) Hi). lia.
      * destruct (search n pl yb ye (cdivN num ps) true (park + 1)) as [more|] eqn:ES; [|discriminate]. injection H as <-.
        apply in_or_app. right. eapply IH; [exact ES|lia|exact Hi|exact Hw| |exact Hn|discriminate].
        intros _. replace (Z.to_N (park + 1)) with (Z.to_N park + 1) by lia. lia.
    + specialize (Hin L). destruct e.
      * injection H as <-. exact Hin.
      * destruct (search n pl yb ye (cdivN num ps) true (park + 1)) as [more|]; [|discriminate]. injection H as <-. apply in_or_app. now left.
Qed.

Opaque search first_park.
Lemma first_park_bounds : forall h yb, 0 < cdivN (h_num_entries_y h) (h_park_size_y h) -> (0 <= first_park h yb < Z.of_N (cdivN (h_num_entries_y h) (h_park_size_y h)))%Z.
Proof. intros h yb H. Transparent first_park. unfold first_park. cbv zeta. Opaque first_park.
  match goal with |- context [Z.of_N (?g / ?q)] => generalize (g / q) end. intros g. generalize dependent (cdivN (h_num_entries_y h) (h_park_size_y h)). intros p Hp. lia. Qed.

Theorem finds_all : forall pl T ch pf is, parks_ok pl -> sorted_table pl T -> find_entries pl ch pf = Some is ->
  let yb := first_y ch (h_ksize (p_header pl)) in
  (forall n, 0 < n -> n * h_park_size_y (p_header pl) < h_num_entries_y (p_header pl) -> ~ (yb <= T (n * h_park_size_y (p_header pl)) < yb + 2 ^ pf)) ->
  forall i, In i is <-> i < h_num_entries_y (p_header pl) /\ yb <= T i < yb + 2 ^ pf.
Proof.
  intros pl T ch pf is Hok ST H yb Hf i. split.
  - intros Hi. destruct (find_sound _ _ _ _ Hok H i Hi) as (Hl & y & Hy & Hw). split; [exact Hl|].
    rewrite (so_value _ _ ST _ Hl) in Hy. injection Hy as <-. exact Hw.
  - intros [Hi Hw]. unfold find_entries in H. cbv zeta in H. fold yb in H.
    assert (Hn : 0 < cdivN (h_num_entries_y (p_header pl)) (h_park_size_y (p_header pl))) by (apply cdivN_lt; [exact (proj1 Hok)|lia]).
    pose proof (first_park_bounds (p_header pl) yb Hn) as HB.
    eapply (search_complete pl T yb (yb + 2 ^ pf) Hok ST Hf); [exact H| |exact Hi|exact Hw|discriminate|exact Hn|]; lia.
Qed.
Transparent search first_park.

(** *** What is found is published *)
Section Publish.
  Variable Or : oracle.
  Variable srt : list meta -> list entry -> list entry.
  Variable arrange : list N -> list N.
  Hypothesis Hsrt : sorts srt.
  Hypothesis Harr : forall l, Permutation l (arrange l).

  Lemma full_found : forall pl i xs l y m, right_plot Or pl -> 8 <= h_ksize (p_header pl) <= 32 -> p_xs pl i = Some xs ->
    incl l (values_of pl xs) -> plot_spells Or pl 8 l y m -> (forall l' y' m', plot_spells Or pl 8 l' y' m' -> incl l' (values_of pl xs) -> l' = l) ->
    get_full_proof Or srt arrange pl i = Some (l, firstn 12 m).
  Proof.
    intros pl i xs l y m R Hk EX Hl S Hu. unfold get_full_proof. rewrite EX. unfold compute.
    pose proof (rp_size _ _ R) as Hxb.
    replace (_ || _ || _) with false by (symmetry; rewrite !orb_false_iff; repeat split; apply N.ltb_ge; lia).
    fold (values_of pl xs).
    assert (HX : h_xbits (p_header pl) + (h_ksize (p_header pl) - h_xbits (p_header pl)) <= 32) by lia.
    assert (Hfit : Forall (fun x => x < 2 ^ h_xbits (p_header pl)) (to_set xs)).
    { eapply forall_incl; [|exact (rp_fit _ _ R _ _ EX)]. intros z Hz. now apply to_set_in. }
    pose proof (candidates_nodup _ _ _ HX Hfit (to_set_nodup xs)) as Hnd. fold (values_of pl xs) in Hnd.
    set (V := if 5 <=? _ then arrange (values_of pl xs) else values_of pl xs).
    assert (HV : Permutation (values_of pl xs) V) by (unfold V; destruct (5 <=? _); [apply Harr|apply Permutation_refl]).
    cbv zeta.
    rewrite (compute_full_only Or srt Hsrt _ _ (proj2 Hk) V l y m (Permutation_NoDup HV Hnd) S).
    - reflexivity.
    - intros z Hz. eapply Permutation_in; [exact HV|auto].
    - intros l' y' m' S' Hi. eapply Hu; [exact S'|]. intros z Hz. eapply Permutation_in; [apply Permutation_sym; exact HV|auto].
  Qed.

  Lemma sequence_some : forall (A B : Type) (f : A -> option B) l, (forall a, In a l -> f a <> None) -> exists r, sequence (map f l) = Some r.
  Proof.
    induction l as [|a l IH]; intros H; cbn [map sequence]; [eauto|].
    destruct (f a) eqn:E; [|exfalso; apply (H a); [now left|exact E]]. destruct IH as [r ->]; [intros; apply H; now right|]. eauto.
  Qed.

  Opaque get_full_proof find_entries try_quality.
  Lemma quality_of : forall pl ch pf is i l d, right_plot Or pl -> find_entries pl ch pf = Some is -> In i is ->
    (h_has_meta (p_header pl) = true -> forall j, In j is -> p_meta pl j <> None) -> get_full_proof Or srt arrange pl i = Some (l, d) ->
    exists qs q, get_qualities Or srt arrange pl ch pf = Some qs /\ In (Some q) qs /\ q_index q = i /\ (q_proof q = [] \/ q_proof q = l) /\ q_meta q = d.
  Proof.
    intros pl ch pf is i l d R EF Hi Hmeta HG. unfold get_qualities. rewrite EF.
    destruct (h_has_meta (p_header pl)) eqn:EM.
    - destruct (sequence_some _ _ (fun i => match p_meta pl i with Some m => Some (Some (mk_quality i [] m)) | None => None end) is) as [r Hr].
      { intros a Ha. specialize (Hmeta eq_refl a Ha). destruct (p_meta pl a); [discriminate|congruence]. }
      destruct (p_meta pl i) as [m|] eqn:Em; [|exfalso; exact (Hmeta eq_refl i Hi Em)].
      exists r, (mk_quality i [] m). split; [exact Hr|]. split; [|cbn [q_index q_proof q_meta]].
      + apply (sequence_map _ _ _ _ _ Hr). exists i. rewrite Em. auto.
      + split; [reflexivity|]. split; [now left|].
        destruct (full_proof Or srt arrange Hsrt Harr _ _ _ _ R HG) as (xs & y & m' & EX & _ & Hl & S & -> & _).
        destruct (rp_value _ _ R _ _ _ _ _ EX Hl S) as [_ Hm]. apply Hm; auto.
    - eexists _, (mk_quality i l d). split; [reflexivity|]. split; [|cbn [q_index q_proof q_meta]; auto].
      apply in_map_iff. exists i. rewrite HG. auto.
  Qed.
  Transparent try_quality.

  Lemma tried_complete : forall P pl c pool q l d, l <> [] -> get_full_proof Or srt arrange pl (q_index q) = Some (l, d) -> (q_proof q = [] \/ q_proof q = l) -> q_meta q = d ->
    let hf := hardfork1_height P <=? c_vdf_height c in
    let ch := o_plot Or (h_plot_id (p_header pl)) (c_challenge c) in
    let ok diff := (if hf then check_post_filter Or ch d (post_filter P) && check_proof_threshold P (h_ksize (p_header pl)) (o_proof Or ch l) diff hf
       else check_proof_threshold P (h_ksize (p_header pl)) (o_quality Or ch d) diff hf) in
    (ok (c_difficulty c) = true -> In (make_proof Or (p_header pl) c (h_contract (p_header pl)) (c_difficulty c) l) (snd (try_quality Or srt arrange P pl c pool q))) /\
    (forall diff, pool = Some diff -> ok diff = true -> In (make_proof Or (p_header pl) c (h_contract (p_header pl)) diff l) (fst (try_quality Or srt arrange P pl c pool q))).
  Proof.
    intros P pl c pool q l d Hl HG Hq Hd hf ch ok. unfold try_quality. fold hf ch. cbv zeta. fold ch.
    rewrite HG, Hd.
    assert (E2 : forall xs, (if (length (q_proof q) =? 0)%nat then (if hf then Some l else Some []) else Some (q_proof q)) = Some xs ->
      (if (length xs =? 0)%nat then Some l else Some xs) = Some l /\ (hf = true -> xs = l)).
    { intros xs E. destruct l as [|x0 l0]; [congruence|]. destruct Hq as [Hq|Hq]; rewrite Hq in E; cbn [length Nat.eqb] in E.
      - destruct hf; injection E as <-; cbn [length Nat.eqb]; split; auto. discriminate.
      - injection E as <-. cbn [length Nat.eqb]. auto. }
    destruct (if (length (q_proof q) =? 0)%nat then (if hf then Some l else Some []) else Some (q_proof q)) as [xs|] eqn:E1;
      [|destruct (length (q_proof q) =? 0)%nat, hf; discriminate].
    destruct (E2 xs eq_refl) as [E3 Hx]. rewrite E3.
    assert (K : forall diff, ok diff = true -> hf && negb (check_post_filter Or ch d (post_filter P)) = false /\
      check_proof_threshold P (h_ksize (p_header pl)) (if hf then o_proof Or ch xs else o_quality Or ch d) diff hf = true).
    { intros diff Ho. unfold ok in Ho. destruct hf; [|auto]. apply andb_true_iff in Ho. destruct Ho as [H1 H2]. rewrite H1, (Hx eq_refl). auto. }
    split.
    - intros Ho. destruct (K _ Ho) as [K1 K2]. rewrite K1, K2. cbn [orb snd]. now left.
    - intros diff -> Ho. destruct (K _ Ho) as [K1 K2]. rewrite K1, K2. rewrite orb_true_r. cbn [fst]. now left.
  Qed.

  Opaque verify_proof try_quality.
  Theorem winners_published : forall P pl c pool T is, right_plot Or pl -> in_range P pl -> 8 <= h_ksize (p_header pl) <= 32 -> sorted_table pl T ->
    let ch := o_plot Or (h_plot_id (p_header pl)) (c_challenge c) in
    let y0 := first_y ch (h_ksize (p_header pl)) in
    find_entries pl ch (plot_filter P) = Some is ->
    (h_has_meta (p_header pl) = true -> forall j, j < h_num_entries_y (p_header pl) -> p_meta pl j <> None) ->
    (forall n, 0 < n -> n * h_park_size_y (p_header pl) < h_num_entries_y (p_header pl) -> ~ (y0 <= T (n * h_park_size_y (p_header pl)) < y0 + 2 ^ plot_filter P)) ->
    forall i xs l y m, i < h_num_entries_y (p_header pl) -> p_xs pl i = Some xs -> incl l (values_of pl xs) -> plot_spells Or pl 8 l y m ->
    (forall l' y' m', plot_spells Or pl 8 l' y' m' -> incl l' (values_of pl xs) -> l' = l) ->
    let proof d := make_proof Or (p_header pl) c (h_contract (p_header pl)) d l in
    (verify_proof Or srt arrange P (proof (c_difficulty c)) (c_challenge c) (c_difficulty c) (c_vdf_height c) = true -> In (proof (c_difficulty c)) (snd (lookup_plot Or srt arrange P pl c pool))) /\
    (forall d, pool = Some d -> verify_proof Or srt arrange P (proof d) (c_challenge c) d (c_vdf_height c) = true -> In (proof d) (fst (lookup_plot Or srt arrange P pl c pool))).
  Proof.
    intros P pl c pool T is R HR Hk ST ch y0 EF Hmeta Hfirst i xs l y m Hi EX Hl S Hu proof.
    pose proof (full_found _ _ _ _ _ _ R Hk EX Hl S Hu) as HG.
    assert (Hne : l <> []) by (intros ->; apply spells_length in S; discriminate S).
    destruct (rp_value _ _ R _ _ _ _ _ EX Hl S) as [Hy _]. specialize (Hy _ (so_value _ _ ST _ Hi)).
    assert (Hacc : forall d, verify_proof Or srt arrange P (proof d) (c_challenge c) d (c_vdf_height c) = true ->
      check_plot_filter Or P (c_challenge c) (h_plot_id (p_header pl)) = true /\ y0 <= T i < y0 + 2 ^ plot_filter P).
    { intros d Hv. destruct (full_proof Or srt arrange Hsrt Harr _ _ _ _ R HG) as (xs' & y' & m' & _ & _ & _ & S' & _ & Hu32 & _).
      destruct (accepted_is_good Or srt arrange Hsrt P (proof d) (c_challenge c) d (c_vdf_height c) Hu32 Hv) as (y1 & m1 & G & _).
      pose proof (g_tree _ _ _ _ _ _ _ _ G) as G1. pose proof (g_window _ _ _ _ _ _ _ _ G) as G2. pose proof (g_filter _ _ _ _ _ _ _ _ G) as G3.
      cbv zeta in G2. unfold made_of in G1. unfold proof, make_proof in G1, G2, G3. cbn [pf_ksize pf_plot_id pf_xs] in G1, G2, G3.
      split; [unfold check_plot_filter; apply N.eqb_eq; rewrite N.shiftr_div_pow2; exact G3|].
      rewrite <- first_y_mod in G2. destruct (spells_fun _ _ _ _ _ _ _ _ S G1) as [E _]. rewrite Hy, E. exact G2. }
    assert (Main : forall d, verify_proof Or srt arrange P (proof d) (c_challenge c) d (c_vdf_height c) = true ->
      exists qs q, check_plot_filter Or P (c_challenge c) (h_plot_id (p_header pl)) = true /\ get_qualities Or srt arrange pl ch (plot_filter P) = Some qs /\ In (Some q) qs /\
        q_index q = i /\ (q_proof q = [] \/ q_proof q = l) /\ q_meta q = firstn 12 m).
    { intros d Hv. destruct (Hacc d Hv) as [HF HW].
      assert (Hin : In i is) by (apply (finds_all pl T ch (plot_filter P) is (rp_parks _ _ R) ST EF Hfirst); auto).
      destruct (quality_of pl ch (plot_filter P) is i l (firstn 12 m) R EF Hin) as (qs & q & A); [|exact HG|exists qs, q; split; [exact HF|exact A]].
      intros Hh j Hj. apply (Hmeta Hh). now destruct (find_sound _ _ _ _ (rp_parks _ _ R) EF _ Hj). }
    assert (Ok : forall d, verify_proof Or srt arrange P (proof d) (c_challenge c) d (c_vdf_height c) = true -> let hf := hardfork1_height P <=? c_vdf_height c in
      (if hf then check_post_filter Or ch (firstn 12 m) (post_filter P) && check_proof_threshold P (h_ksize (p_header pl)) (o_proof Or ch l) d hf
       else check_proof_threshold P (h_ksize (p_header pl)) (o_quality Or ch (firstn 12 m)) d hf) = true).
    { intros d Hv hf. destruct (Hacc d Hv) as [HF HW].
      pose proof (entry_accepted Or srt arrange Hsrt Harr P pl c i l (firstn 12 m) d R HR HG HF) as HE.
      unfold proof in Hv. cbv zeta in HE. rewrite HE in Hv; [exact Hv|]. exists (T i). split; [exact (so_value _ _ ST _ Hi)|exact HW]. }
    split.
    - intros Hv. destruct (Main _ Hv) as (qs & q & HF & EQ & Hq & Ei & Ep & Em). unfold lookup_plot. rewrite HF. fold ch. rewrite EQ. cbn [snd].
      apply in_flat_map. exists (try_quality Or srt arrange P pl c pool q). split.
      + apply in_flat_map. exists (Some q). split; [exact Hq|now left].
      + rewrite <- Ei in HG. exact (proj1 (tried_complete P pl c pool q l _ Hne HG Ep Em) (Ok _ Hv)).
    - intros d Hd Hv. destruct (Main _ Hv) as (qs & q & HF & EQ & Hq & Ei & Ep & Em). unfold lookup_plot. rewrite HF. fold ch. rewrite EQ. cbn [fst].
      apply in_flat_map. exists (try_quality Or srt arrange P pl c pool q). split.
      + apply in_flat_map. exists (Some q). split; [exact Hq|now left].
      + rewrite <- Ei in HG. exact (proj2 (tried_complete P pl c pool q l _ Hne HG Ep Em) d Hd (Ok _ Hv)).
  Qed.
  Transparent verify_proof try_quality get_full_proof find_entries.

  (** *** From the harvester over the farmer to the nodes *)
  Variables (pub : N -> N) (sign : N -> N -> N) (sig_ok : N -> N -> N -> bool).
  Hypothesis Hsig : forall sk h, sig_ok (pub sk) h (sign sk h) = true.
  Theorem response_accepted : forall P pl c pool p name keys v root, right_plot Or pl -> in_range P pl ->
    In p (snd (lookup_plot Or srt arrange P pl c pool)) ->
    (forall k sk, keys k = Some sk -> pub sk = k) ->
    farmer_handle Or sign keys (send_response Or name c p) = Some v -> root < c_vdf_height c ->
    r_proof v = p /\ verify_response Or srt arrange sig_ok P root (Some (c_challenge c, c_difficulty c)) v = true.
  Proof.
    intros P pl c pool p name keys v root R HR Hin Hkeys H Hroot.
    pose proof (proj1 (published_accepted Or srt arrange Hsrt Harr P pl c pool p R HR) Hin) as Hv.
    unfold farmer_handle, send_response in H. cbn [r_proof r_hash r_vdf_height r_name] in H.
    destruct (response_is_valid Or _) eqn:EV; [|discriminate].
    destruct (keys (pf_farmer_key p)) as [sk|] eqn:EK; [|discriminate]. injection H as <-. split; [reflexivity|].
    unfold verify_response. cbn [r_proof r_hash r_vdf_height r_sig r_name]. rewrite Hv.
    match goal with |- response_is_valid _ ?w && _ && _ && _ && _ = true => assert (response_is_valid Or w = true) as -> by exact EV end.
    assert (proof_validate Or p = true) as ->.
    { unfold verify_proof in Hv. rewrite !andb_true_iff in Hv. tauto. }
    rewrite <- (Hkeys _ _ EK), Hsig. cbn [andb]. rewrite andb_true_r. now apply N.ltb_lt.
  Qed.
  (** a farmer with the key of the plot does publish it *)
  Theorem farmer_passes_on : forall P pl c pool p name keys sk, right_plot Or pl -> in_range P pl -> name < 1024 ->
    In p (snd (lookup_plot Or srt arrange P pl c pool)) -> keys (pf_farmer_key p) = Some sk -> exists v, farmer_handle Or sign keys (send_response Or name c p) = Some v.
  Proof.
    intros P pl c pool p name keys sk R HR Hname Hin EK.
    pose proof (proj1 (published_accepted Or srt arrange Hsrt Harr P pl c pool p R HR) Hin) as Hv.
    unfold verify_proof in Hv. rewrite !andb_true_iff in Hv.
    unfold farmer_handle, send_response, response_is_valid. cbn [r_proof r_hash r_vdf_height r_name]. destruct Hv as [[[[[[[_ ->] _] _] _] _] _] _].
    rewrite N.eqb_refl, EK. replace (N.min name 1024 <? 1024) with true by (symmetry; apply N.ltb_lt; lia). cbn [andb]. eauto.
  Qed.
  (** all starting values published are below 2^k *)
  Theorem published_small : forall P pl c pool p, right_plot Or pl -> In p (fst (lookup_plot Or srt arrange P pl c pool)) \/ In p (snd (lookup_plot Or srt arrange P pl c pool)) ->
    Forall (fun x => x < 2 ^ pf_ksize p) (pf_xs p).
  Proof.
    intros P pl c pool p R Hin. unfold lookup_plot in Hin.
    destruct (check_plot_filter Or P (c_challenge c) (h_plot_id (p_header pl))) eqn:EF; [|destruct Hin as [[]|[]]].
    destruct (get_qualities Or srt arrange pl _ (plot_filter P)) as [qs|] eqn:EQ; [|destruct Hin as [[]|[]]].
    assert (G : exists q, In (Some q) qs /\ (In p (fst (try_quality Or srt arrange P pl c pool q)) \/ In p (snd (try_quality Or srt arrange P pl c pool q)))).
    { cbn [fst snd] in Hin. destruct Hin as [Hin|Hin]; apply in_flat_map in Hin; destruct Hin as (o & Ho & Hin); apply in_flat_map in Ho; destruct Ho as (q & Hq & Ho);
        (destruct q as [q|]; [|contradiction]); destruct Ho as [<-|[]]; exists q; auto. }
    destruct G as (q & Hq & Hin').
    destruct (quality_in Or srt arrange Hsrt Harr _ _ _ _ _ R EQ Hq) as (is & EI & Hi & Hm & Hp).
    destruct (tried Or srt arrange Hsrt Harr P pl c pool q p R Hm Hp Hin') as (xo & d & diff & HG & -> & _).
    destruct (full_proof Or srt arrange Hsrt Harr _ _ _ _ R HG) as (xs & y & m & EX & Hk & Hl & _).
    unfold make_proof. cbn [pf_ksize pf_xs]. apply Forall_forall. intros z Hz. specialize (Hl z Hz). unfold values_of in Hl.
    apply in_flat_map in Hl. destruct Hl as (X & HX & Hc). apply candidates_in in Hc. destruct Hc as (j & Hj & ->).
    pose proof (rp_size _ _ R) as Hs. pose proof (rp_fit _ _ R _ _ EX) as Hf. rewrite Forall_forall in Hf. apply (proj1 (to_set_in _ _)) in HX. specialize (Hf X HX). cbn in Hf.
    destruct (candidate_val (h_ksize (p_header pl) - h_xbits (p_header pl)) (h_xbits (p_header pl)) X j) as [-> _]; [lia|exact Hf|exact Hj|].
    replace (2 ^ h_ksize (p_header pl)) with (2 ^ h_xbits (p_header pl) * 2 ^ (h_ksize (p_header pl) - h_xbits (p_header pl))) by (rewrite <- N.pow_add_r; f_equal; lia).
    assert ((X + 1) * 2 ^ (h_ksize (p_header pl) - h_xbits (p_header pl)) <= 2 ^ h_xbits (p_header pl) * 2 ^ (h_ksize (p_header pl) - h_xbits (p_header pl))) by (apply N.mul_le_mono_r; lia). lia.
  Qed.
End Publish.
