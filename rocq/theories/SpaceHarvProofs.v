Require Import List Arith NArith ZArith Bool Lia Permutation Sorted.
From Verif Require Import BitsLib SpaceModel SpaceSpec SpaceProofs SpaceVerProofs.
Import ListNotations.
Open Scope N_scope.

(** *** The starting values that belong to the stored ones *)
Lemma candidates_in : forall xb X z, In z (candidates xb X) <-> exists i, i < 2 ^ xb /\ z = N.lor ((X * 2 ^ xb) mod 2 ^ 32) i.
Proof.
  intros xb X z. unfold candidates. rewrite in_map_iff. split.
  - intros (i & <- & Hi). apply in_seq in Hi. exists (N.of_nat i). split; [lia|reflexivity].
  - intros (i & Hi & ->). exists (N.to_nat i). rewrite N2Nat.id. split; [reflexivity|]. apply in_seq. lia.
Qed.
Lemma candidate_val : forall xb w X i, w + xb <= 32 -> X < 2 ^ w -> i < 2 ^ xb -> N.lor ((X * 2 ^ xb) mod 2 ^ 32) i = X * 2 ^ xb + i /\ X * 2 ^ xb + i < 2 ^ 32.
Proof.
  intros xb w X i Hk HX Hi.
  assert (Hp : 2 ^ w * 2 ^ xb <= 2 ^ 32) by (rewrite <- N.pow_add_r; apply N.pow_le_mono_r; [discriminate|assumption]).
  assert (Hb : X * 2 ^ xb + i < 2 ^ 32).
  { assert ((X + 1) * 2 ^ xb <= 2 ^ w * 2 ^ xb) by (apply N.mul_le_mono_r; lia). lia. }
  split; [|exact Hb]. rewrite N.mod_small by lia.
  rewrite <- (lor_shiftl_add X i xb Hi). now rewrite N.shiftl_mul_pow2.
Qed.
Lemma candidates_nodup : forall xb w l, w + xb <= 32 -> Forall (fun X => X < 2 ^ w) l -> NoDup l -> NoDup (flat_map (candidates xb) l).
Proof.
  intros xb w l Hk Hf Hd. induction Hd as [|X l Hn Hd IH]; cbn [flat_map]; [constructor|].
  inversion Hf as [|? ? HX Hf']; subst. specialize (IH Hf').
  assert (Hz : 2 ^ xb <> 0) by (apply N.pow_nonzero; discriminate).
  apply nodup_app; auto.
  - unfold candidates. apply nodup_map; [|apply seq_NoDup].
    intros a b Ha Hb E. apply in_seq in Ha. apply in_seq in Hb.
    destruct (candidate_val xb w X (N.of_nat a) Hk HX) as [Ea _]; [lia|]. destruct (candidate_val xb w X (N.of_nat b) Hk HX) as [Eb _]; [lia|].
    rewrite Ea, Eb in E. lia.
  - intros z H1 H2. apply candidates_in in H1. destruct H1 as (i & Hi & ->).
    apply in_flat_map in H2. destruct H2 as (X' & HX' & H2). apply candidates_in in H2. destruct H2 as (j & Hj & E).
    rewrite Forall_forall in Hf'. pose proof (Hf' _ HX') as HX2. cbn in HX2.
    destruct (candidate_val xb w X i Hk HX Hi) as [Ea _]. destruct (candidate_val xb w X' j Hk HX2 Hj) as [Eb _].
    rewrite Ea, Eb in E.
    assert (X = X').
    { apply (f_equal (fun v => v / 2 ^ xb)) in E. rewrite !N.div_add_l, !N.div_small in E by assumption. lia. }
    subst. contradiction.
Qed.
Lemma candidates_u32 : forall xb w l, w + xb <= 32 -> Forall (fun X => X < 2 ^ w) l -> Forall u32 (flat_map (candidates xb) l).
Proof.
  intros xb w l Hk Hf. apply Forall_forall. intros z Hz. apply in_flat_map in Hz. destruct Hz as (X & HX & Hz).
  apply candidates_in in Hz. destruct Hz as (i & Hi & ->). rewrite Forall_forall in Hf.
  destruct (candidate_val xb w X i Hk (Hf _ HX) Hi) as [-> H]. exact H.
Qed.

(** *** Reading the table of values *)
(** the value stored for entry [i] *)
Definition stored (pl : plot) (i : N) : option N :=
  let ps := h_park_size_y (p_header pl) in
  match p_head pl (i / ps), p_deltas pl (i / ps) with
  | Some y, Some ds => nth_error (y_list y ds) (N.to_nat (i mod ps))
  | _, _ => None
  end.
(** every park that can be read has the number of entries it should have (encoding.cpp:85-116 decodes as many as it is asked to) *)
Definition parks_ok (pl : plot) : Prop :=
  0 < h_park_size_y (p_header pl) /\ forall n ds, p_deltas pl n = Some ds -> N.of_nat (length ds) = h_park_size_y (p_header pl) - 1.

Lemma undelta_length : forall ds y, length (undelta y ds) = length ds.
Proof. induction ds; intros; cbn; auto. Qed.

Lemma pick_in : forall yb ye num ys i out e, pick yb ye num i ys = (out, e) -> forall j, In j out ->
  exists t y, j = i + N.of_nat t /\ nth_error ys t = Some y /\ yb <= y < ye /\ j < num.
Proof.
  induction ys as [|y ys IH]; intros i out e H j Hj; cbn [pick] in H.
  - injection H as <- <-. contradiction.
  - destruct (ye <=? y) eqn:E1; [injection H as <- <-; contradiction|]. apply N.leb_gt in E1.
    destruct (pick yb ye num (i + 1) ys) as [out' e'] eqn:EP. injection H as <- <-.
    assert (G : In j out' -> exists t y0, j = i + N.of_nat t /\ nth_error (y :: ys) t = Some y0 /\ yb <= y0 < ye /\ j < num).
    { intros Hj'. destruct (IH _ _ _ EP j Hj') as (t & y0 & -> & Ht & Hr). exists (S t), y0. split; [lia|]. split; [exact Ht|exact Hr]. }
    destruct ((yb <=? y) && (i <? num)) eqn:E2; [|auto].
    destruct Hj as [<-|Hj]; [|auto]. apply andb_true_iff in E2. destruct E2 as [E2 E3]. apply N.leb_le in E2. apply N.ltb_lt in E3.
    exists O, y. split; [lia|]. split; [reflexivity|]. lia.
Qed.
Lemma stored_at : forall pl park y ds t v, parks_ok pl -> p_head pl park = Some y -> p_deltas pl park = Some ds -> nth_error (y_list y ds) t = Some v ->
  stored pl (park * h_park_size_y (p_header pl) + N.of_nat t) = Some v.
Proof.
  intros pl park y ds t v [Hps Hlen] Hh Hd Ht. unfold stored. cbv zeta.
  assert (Hlt : N.of_nat t < h_park_size_y (p_header pl)).
  { assert (t < length (y_list y ds))%nat by (apply nth_error_Some; rewrite Ht; discriminate).
    unfold y_list in H. cbn [length] in H. rewrite undelta_length in H. pose proof (Hlen _ _ Hd). lia. }
  rewrite N.div_add_l, N.div_small, N.add_0_r by lia. rewrite Hh, Hd.
  rewrite (N.add_comm _ (N.of_nat t)), N.mod_add, N.mod_small, Nat2N.id by lia. exact Ht.
Qed.
Lemma search_sound : forall n pl yb ye parks hb park out, parks_ok pl -> search n pl yb ye parks hb park = Some out ->
  forall i, In i out -> i < h_num_entries_y (p_header pl) /\ exists y, stored pl i = Some y /\ yb <= y < ye.
Proof.
  induction n as [|n IH]; intros pl yb ye parks hb park out Hok H i Hi; cbn [search] in H.
  - destruct (_ || _)%bool; [injection H as <-; contradiction|discriminate].
  - destruct (_ || _)%bool eqn:EB; [injection H as <-; contradiction|].
    apply orb_false_iff in EB. destruct EB as [EB _]. apply Z.ltb_ge in EB.
    destruct (p_head pl (Z.to_N park)) as [y|] eqn:EH; [|discriminate].
    destruct (ye <=? y).
    + destruct (hb || (park =? 0)%Z); [injection H as <-; contradiction|]. eapply IH; eauto.
    + destruct (p_deltas pl (Z.to_N park)) as [ds|] eqn:ED; [|discriminate].
      destruct (pick yb ye _ _ _) as [o e] eqn:EP.
      assert (Go : In i o -> i < h_num_entries_y (p_header pl) /\ exists y, stored pl i = Some y /\ yb <= y < ye).
      { intros Ho. destruct (pick_in _ _ _ _ _ _ _ EP i Ho) as (t & v & -> & Ht & Hr & Hn). split; auto.
        exists v. split; auto. eapply stored_at; eauto. }
      destruct e; [injection H as <-; auto|].
      destruct (search n pl yb ye parks true (park + 1)) as [more|] eqn:ES; [|discriminate]. injection H as <-.
      apply in_app_iff in Hi. destruct Hi as [Hi|Hi]; [auto|]. eapply IH; eauto.
Qed.

Opaque search.
Lemma find_sound : forall pl ch pf is, parks_ok pl -> find_entries pl ch pf = Some is -> forall i, In i is ->
  i < h_num_entries_y (p_header pl) /\ exists y, stored pl i = Some y /\ first_y ch (h_ksize (p_header pl)) <= y < first_y ch (h_ksize (p_header pl)) + 2 ^ pf.
Proof. intros pl ch pf is Hok H i Hi. unfold find_entries in H. exact (search_sound _ _ _ _ _ _ _ _ Hok H i Hi). Qed.
Transparent search.

(** *** Plots whose tables are right *)
Section Plots.
  Variable Or : oracle.
  Variable srt : list meta -> list entry -> list entry.
  Variable arrange : list N -> list N.
  Hypothesis Hsrt : sorts srt.
  Hypothesis Harr : forall l, Permutation l (arrange l).

  (** the starting values that the stored values of an entry may stand for *)
  Definition values_of (pl : plot) (xs : list N) : list N := flat_map (candidates (h_ksize (p_header pl) - h_xbits (p_header pl))) (to_set xs).
  Definition plot_spells (pl : plot) := spells (f1 Or (h_ksize (p_header pl)) (h_plot_id (p_header pl))) (f2 Or (h_ksize (p_header pl))).
  Record right_plot (pl : plot) : Prop := mk_right {
    rp_parks : parks_ok pl;
    rp_size : h_xbits (p_header pl) <= h_ksize (p_header pl);
    rp_id : h_plot_id (p_header pl) = match h_contract (p_header pl) with
                                      | None => o_idog Or (h_ksize (p_header pl)) (h_seed (p_header pl)) (h_farmer_key (p_header pl))
                                      | Some c => o_idnft Or (h_ksize (p_header pl)) (h_seed (p_header pl)) (h_farmer_key (p_header pl)) c end;
    rp_fit : forall i xs, p_xs pl i = Some xs -> Forall (fun x => x < 2 ^ h_xbits (p_header pl)) xs;
    (** value and data stored for an entry are those of its proof *)
    rp_value : forall i xs l y m, p_xs pl i = Some xs -> incl l (values_of pl xs) -> plot_spells pl 8 l y m ->
      (forall v, stored pl i = Some v -> v = y) /\ (forall d, h_has_meta (p_header pl) = true -> p_meta pl i = Some d -> d = firstn 12 m);
    rp_distinct : forall i xs, p_xs pl i = Some xs -> distinct_data (f1 Or (h_ksize (p_header pl)) (h_plot_id (p_header pl))) (f2 Or (h_ksize (p_header pl))) 8 (values_of pl xs) }.

  Lemma distinct_incl : forall F1 F2 n a b, incl a b -> distinct_data F1 F2 n b -> distinct_data F1 F2 n a.
  Proof. intros F1 F2 n a b Hi Hd l l' y y' m H1 H2. apply Hd; eapply incl_tran; eauto. Qed.

  Lemma full_proof : forall pl i xo d, right_plot pl -> get_full_proof Or srt arrange pl i = Some (xo, d) ->
    exists xs y m, p_xs pl i = Some xs /\ 8 <= h_ksize (p_header pl) <= 32 /\ incl xo (values_of pl xs) /\ plot_spells pl 8 xo y m /\ d = firstn 12 m /\ Forall u32 xo /\
      only_proof (f1 Or (h_ksize (p_header pl)) (h_plot_id (p_header pl))) (f2 Or (h_ksize (p_header pl))) 8 xo.
  Proof.
    intros pl i xo d R H. unfold get_full_proof in H.
    destruct (p_xs pl i) as [xs|] eqn:EX; [|discriminate].
    destruct (compute Or srt arrange xs _ _ _) as [[[|[y m] [|]] xo']|] eqn:EC; try discriminate. injection H as -> ->.
    destruct (compute_ksize _ _ _ _ _ _ _ _ EC) as [Hk Hxb].
    unfold compute in EC. replace (_ || _ || _) with false in EC
      by (symmetry; rewrite !orb_false_iff; repeat split; apply N.ltb_ge; lia).
    fold (values_of pl xs) in EC.
    assert (HX : h_xbits (p_header pl) + (h_ksize (p_header pl) - h_xbits (p_header pl)) <= 32) by (pose proof (rp_size _ R); lia).
    assert (Hfit : Forall (fun x => x < 2 ^ h_xbits (p_header pl)) (to_set xs)).
    { eapply forall_incl; [|exact (rp_fit _ R _ _ EX)]. intros z Hz. now apply to_set_in. }
    pose proof (candidates_nodup _ _ _ HX Hfit (to_set_nodup xs)) as Hnd. fold (values_of pl xs) in Hnd.
    pose proof (candidates_u32 _ _ _ HX Hfit) as Hu. fold (values_of pl xs) in Hu.
    set (V := if 5 <=? _ then arrange (values_of pl xs) else values_of pl xs) in EC.
    assert (HV : Permutation (values_of pl xs) V) by (unfold V; destruct (5 <=? _); [apply Harr|apply Permutation_refl]).
    destruct (compute_full_one Or srt Hsrt _ _ (proj2 Hk) V _ _ _ (Permutation_NoDup HV Hnd) EC) as (m' & S & Em & Hi & Hall).
    assert (Hi' : incl xo (values_of pl xs)) by (intros z Hz; eapply Permutation_in; [apply Permutation_sym; exact HV|auto]).
    exists xs, y, m'. split; [reflexivity|]. split; [exact Hk|]. split; [exact Hi'|]. split; [exact S|]. split; [exact Em|].
    split; [eapply forall_incl; [exact Hi'|exact Hu]|].
    intros l y' m'' Sl Hl.
    assert (m'' = m') by (eapply Hall; [exact Sl|]; intros z Hz; apply Hi; auto). subst m''.
    eapply (rp_distinct _ R _ _ EX); [eapply incl_tran; eauto|exact Hi'|exact Sl|exact S].
  Qed.

  Definition in_range (P : params) (pl : plot) : Prop := min_ksize P <= h_ksize (p_header pl) <= max_ksize P.
  (** what a proof made from an entry in the window needs to be accepted *)
  Lemma entry_accepted : forall P pl c i xo d diff, right_plot pl -> in_range P pl ->
    get_full_proof Or srt arrange pl i = Some (xo, d) ->
    check_plot_filter Or P (c_challenge c) (h_plot_id (p_header pl)) = true ->
    (exists y, stored pl i = Some y /\ let y0 := first_y (o_plot Or (h_plot_id (p_header pl)) (c_challenge c)) (h_ksize (p_header pl)) in y0 <= y < y0 + 2 ^ plot_filter P) ->
    let hf := hardfork1_height P <=? c_vdf_height c in
    let ch := o_plot Or (h_plot_id (p_header pl)) (c_challenge c) in
    verify_proof Or srt arrange P (make_proof Or (p_header pl) c (h_contract (p_header pl)) diff xo) (c_challenge c) diff (c_vdf_height c)
    = (if hf then check_post_filter Or ch d (post_filter P) && check_proof_threshold P (h_ksize (p_header pl)) (o_proof Or ch xo) diff hf
       else check_proof_threshold P (h_ksize (p_header pl)) (o_quality Or ch d) diff hf).
  Proof.
    intros P pl c i xo d diff R HR HG HF (y & HS & HW) hf ch.
    destruct (full_proof _ _ _ _ R HG) as (xs & y' & m & EX & Hk & Hi & S & -> & Hu & Ho).
    destruct (rp_value _ R _ _ _ _ _ EX Hi S) as [Hy _]. specialize (Hy _ HS). subst y'. cbv zeta in HW.
    unfold verify_proof. set (p := make_proof _ _ _ _ _ _).
    assert (E0 : proof_is_valid p = true).
    { unfold proof_is_valid, p, make_proof. cbn [pf_ksize pf_xs]. rewrite andb_true_iff, N.ltb_lt, Nat.leb_le. split; [lia|].
      unfold plot_spells in S. rewrite (spells_length _ _ _ _ _ _ S). change (2 ^ 8)%nat with 256%nat. lia. }
    assert (E1 : proof_validate Or p = true).
    { unfold proof_validate, p, make_proof. cbn [pf_contract pf_ksize pf_seed pf_farmer_key pf_plot_id]. apply N.eqb_eq. symmetry. exact (rp_id _ R). }
    rewrite E0, E1. unfold p, make_proof. cbn [pf_challenge pf_difficulty pf_plot_id pf_xs pf_score]. rewrite !N.eqb_refl, HF, !andb_true_r. cbn [andb].
    unfold verify_proof_impl. cbn [pf_ksize pf_xs pf_plot_id]. fold hf. fold ch.
    unfold in_range in HR.
    replace (h_ksize (p_header pl) <? min_ksize P) with false by (symmetry; apply N.ltb_ge; lia).
    replace (max_ksize P <? h_ksize (p_header pl)) with false by (symmetry; apply N.ltb_ge; lia). cbn [orb].
    fold ch in HW.
    assert (Hv : (hf = true -> check_post_filter Or ch (firstn N_META_OUT m) (post_filter P) = true) ->
      verify Or srt arrange xo ch (h_plot_id (p_header pl)) (plot_filter P) (post_filter P) (h_ksize (p_header pl)) hf
      = Some (if hf then o_proof Or ch xo else o_quality Or ch (firstn N_META_OUT m))).
    { intros Hp. apply verify_complete with (y := y); auto. destruct hf; auto. }
    destruct (N.eq_dec diff 0) as [->|Hd].
    { cbn [N.ltb]. change (0 <? 0) with false. cbn [andb]. unfold check_proof_threshold. rewrite N.eqb_refl. rewrite andb_false_r. now destruct hf. }
    replace (0 <? diff) with true by (symmetry; apply N.ltb_lt; lia). cbn [andb].
    destruct hf.
    - change (firstn 12 m) with (firstn N_META_OUT m).
      destruct (check_post_filter Or ch (firstn N_META_OUT m) (post_filter P)) eqn:EP; cbn [andb].
      + rewrite Hv by auto. reflexivity.
      + destruct (verify Or srt arrange xo ch _ _ _ _ true) as [q|] eqn:EV; [|reflexivity]. exfalso.
        destruct (verify_sound Or srt arrange Hsrt _ _ _ _ _ _ _ _ Hu EV) as (_ & y2 & m2 & S2 & _ & _ & [F _]).
        destruct (spells_fun _ _ _ _ _ _ _ _ S S2) as [_ <-]. congruence.
    - rewrite Hv by discriminate. reflexivity.
  Qed.

  (** qualities belong to entries of the window, with the data of the proof of that entry *)
  Lemma sequence_map : forall (A B : Type) (f : A -> option B) l r, sequence (map f l) = Some r -> forall b, In b r <-> exists a, In a l /\ f a = Some b.
  Proof.
    induction l as [|a l IH]; intros r H b; cbn [map sequence] in H.
    - injection H as <-. cbn. split; [tauto|]. intros (a & [] & _).
    - destruct (f a) as [b0|] eqn:E; [|discriminate]. destruct (sequence (map f l)) as [r'|] eqn:ES; [|discriminate]. injection H as <-.
      cbn [In]. rewrite (IH _ eq_refl). split.
      + intros [<-|(a' & H1 & H2)]; [exists a; auto|exists a'; auto].
      + intros (a' & [<-|H1] & H2); [left; congruence|right; exists a'; auto].
  Qed.
  Opaque get_full_proof find_entries.
  Lemma quality_in : forall pl ch pf qs q, right_plot pl -> get_qualities Or srt arrange pl ch pf = Some qs -> In (Some q) qs ->
    exists is, find_entries pl ch pf = Some is /\ In (q_index q) is /\
      (forall xo d, get_full_proof Or srt arrange pl (q_index q) = Some (xo, d) -> q_meta q = d) /\
      (q_proof q = [] \/ exists d, get_full_proof Or srt arrange pl (q_index q) = Some (q_proof q, d)).
  Proof.
    intros pl ch pf qs q R H Hq. unfold get_qualities in H.
    destruct (find_entries pl ch pf) as [is|] eqn:EF; [|discriminate]. exists is. split; [reflexivity|].
    destruct (h_has_meta (p_header pl)) eqn:EM.
    - apply (sequence_map _ _ _ _ _ H) in Hq. destruct Hq as (i & Hi & E).
      destruct (p_meta pl i) as [m|] eqn:Em; [|discriminate]. injection E as <-. cbn [q_index q_proof q_meta].
      split; [exact Hi|]. split; [|now left].
      intros xo d HG. destruct (full_proof _ _ _ _ R HG) as (xs & y & m' & EX & _ & Hl & S & -> & _).
      destruct (rp_value _ R _ _ _ _ _ EX Hl S) as [_ Hm]. apply Hm; auto.
    - injection H as <-. apply in_map_iff in Hq. destruct Hq as (i & E & Hi).
      destruct (get_full_proof Or srt arrange pl i) as [[xs m]|] eqn:EG; [|discriminate]. injection E as <-. cbn [q_index q_proof q_meta].
      split; [exact Hi|]. split; [|right; eauto]. intros xo d E. rewrite EG in E. now injection E.
  Qed.

  (** what is published comes from an entry of the window *)
  Lemma tried : forall P pl c pool q p, right_plot pl ->
    (forall xo d, get_full_proof Or srt arrange pl (q_index q) = Some (xo, d) -> q_meta q = d) ->
    (q_proof q = [] \/ exists d, get_full_proof Or srt arrange pl (q_index q) = Some (q_proof q, d)) ->
    In p (fst (try_quality Or srt arrange P pl c pool q)) \/ In p (snd (try_quality Or srt arrange P pl c pool q)) ->
    let hf := hardfork1_height P <=? c_vdf_height c in
    let ch := o_plot Or (h_plot_id (p_header pl)) (c_challenge c) in
    exists xo d diff, get_full_proof Or srt arrange pl (q_index q) = Some (xo, d) /\ p = make_proof Or (p_header pl) c (h_contract (p_header pl)) diff xo /\
      (In p (snd (try_quality Or srt arrange P pl c pool q)) -> p = make_proof Or (p_header pl) c (h_contract (p_header pl)) (c_difficulty c) xo) /\
      (In p (fst (try_quality Or srt arrange P pl c pool q)) -> exists d', pool = Some d' /\ p = make_proof Or (p_header pl) c (h_contract (p_header pl)) d' xo) /\
      (if hf then check_post_filter Or ch d (post_filter P) && check_proof_threshold P (h_ksize (p_header pl)) (o_proof Or ch xo) diff hf
       else check_proof_threshold P (h_ksize (p_header pl)) (o_quality Or ch d) diff hf) = true.
  Proof.
    intros P pl c pool q p R Hm Hp Hin hf ch. unfold try_quality in *. fold hf in Hin |- *. fold ch in Hin |- *.
    assert (Hne : forall xo d, get_full_proof Or srt arrange pl (q_index q) = Some (xo, d) -> xo <> []).
    { intros xo d HG -> . destruct (full_proof _ _ _ _ R HG) as (xs & y & m & _ & _ & _ & S & _). apply spells_length in S. discriminate S. }
    destruct (hf && negb (check_post_filter Or ch (q_meta q) (post_filter P))) eqn:EP; [cbn in Hin; tauto|].
    set (fetch := match get_full_proof Or srt arrange pl (q_index q) with Some (xs, _) => Some xs | None => None end) in *.
    (* the values published are those of the full proof; the quality is that of it *)
    assert (K : forall xs xs', (if (length (q_proof q) =? 0)%nat then (if hf then fetch else Some []) else Some (q_proof q)) = Some xs ->
      (if (length xs =? 0)%nat then fetch else Some xs) = Some xs' ->
      exists d, get_full_proof Or srt arrange pl (q_index q) = Some (xs', d) /\ q_meta q = d /\ (hf = true -> xs = xs')).
    { intros xs xs' E1 E2.
      assert (F : forall z, fetch = Some z -> exists d, get_full_proof Or srt arrange pl (q_index q) = Some (z, d) /\ q_meta q = d /\ z <> []).
      { intros z Hz. unfold fetch in Hz. destruct (get_full_proof Or srt arrange pl (q_index q)) as [[z' d]|] eqn:EG; [|discriminate]. injection Hz as ->.
        exists d. split; [reflexivity|]. split; [eapply Hm; reflexivity|]. eapply Hne; reflexivity. }
      destruct Hp as [Hp|[d Hp]].
      - rewrite Hp in E1. cbn [length] in E1. change (0 =? 0)%nat with true in E1. cbv iota in E1. destruct hf.
        + destruct (F _ E1) as (d & A & B & C). destruct xs as [|x0 xs]; [congruence|]. cbn [length Nat.eqb] in E2. injection E2 as <-. eauto.
        + injection E1 as <-. cbn [length] in E2. change (0 =? 0)%nat with true in E2. cbv iota in E2. destruct (F _ E2) as (d & A & B & C). exists d. split; auto. split; auto. discriminate.
      - pose proof (Hne _ _ Hp) as N0. destruct (q_proof q) as [|x0 r]; [congruence|]. cbn [length Nat.eqb] in E1. injection E1 as <-. cbn [length Nat.eqb] in E2. injection E2 as <-.
        exists d. split; [exact Hp|]. split; [eapply Hm; exact Hp|]. auto. }
    destruct (if (length (q_proof q) =? 0)%nat then (if hf then fetch else Some []) else Some (q_proof q)) as [xs|] eqn:E1; [|cbn in Hin; tauto].
    set (quality := if hf then o_proof Or ch xs else o_quality Or ch (q_meta q)) in *.
    set (solo := check_proof_threshold P (h_ksize (p_header pl)) quality (c_difficulty c) hf) in *.
    set (part := match pool with Some d => check_proof_threshold P (h_ksize (p_header pl)) quality d hf | None => false end) in *.
    destruct (solo || part) eqn:ESP; [|cbn in Hin; tauto].
    destruct (if (length xs =? 0)%nat then fetch else Some xs) as [xs'|] eqn:E2; [|cbn in Hin; tauto].
    destruct (K _ _ eq_refl E2) as (d & HG & Hd & Hx). cbn [fst snd] in *.
    assert (Q : forall diff, check_proof_threshold P (h_ksize (p_header pl)) quality diff hf = true ->
      (if hf then check_post_filter Or ch d (post_filter P) && check_proof_threshold P (h_ksize (p_header pl)) (o_proof Or ch xs') diff hf
       else check_proof_threshold P (h_ksize (p_header pl)) (o_quality Or ch d) diff hf) = true).
    { intros diff Ht. unfold quality in Ht. rewrite Hd in Ht, EP. destruct hf; [|exact Ht].
      rewrite (Hx eq_refl) in Ht. cbn [andb] in EP. apply negb_false_iff in EP. now rewrite EP, Ht. }
    assert (A : In p (if solo then [make_proof Or (p_header pl) c (h_contract (p_header pl)) (c_difficulty c) xs'] else []) ->
                solo = true /\ p = make_proof Or (p_header pl) c (h_contract (p_header pl)) (c_difficulty c) xs').
    { destruct solo; [|contradiction]. intros [<-|[]]. auto. }
    assert (B : In p (match pool with Some d0 => if part then [make_proof Or (p_header pl) c (h_contract (p_header pl)) d0 xs'] else [] | None => [] end) ->
                exists d', pool = Some d' /\ check_proof_threshold P (h_ksize (p_header pl)) quality d' hf = true /\ p = make_proof Or (p_header pl) c (h_contract (p_header pl)) d' xs').
    { unfold part. destruct pool as [d0|]; [|contradiction]. destruct (check_proof_threshold P (h_ksize (p_header pl)) quality d0 hf) eqn:ET; [|contradiction].
      intros [<-|[]]. eauto. }
    assert (B' : forall z, In p z -> In p z) by auto.
    destruct Hin as [Hin|Hin].
    - destruct (B Hin) as (d' & -> & Ht & Hp'). exists xs', d, d'. split; [exact HG|]. split; [exact Hp'|]. split; [intros H; apply (A H)|]. split; [eauto|]. apply Q, Ht.
    - destruct (A Hin) as [Hs Hp']. exists xs', d, (c_difficulty c). split; [exact HG|]. split; [exact Hp'|]. split; [auto|]. split; [|apply Q, Hs].
      intros H. destruct (B H) as (d' & H1 & _ & H2). eauto.
  Qed.

  Theorem published_accepted : forall P pl c pool p, right_plot pl -> in_range P pl ->
    (In p (snd (lookup_plot Or srt arrange P pl c pool)) -> verify_proof Or srt arrange P p (c_challenge c) (c_difficulty c) (c_vdf_height c) = true) /\
    (In p (fst (lookup_plot Or srt arrange P pl c pool)) -> exists d, pool = Some d /\ verify_proof Or srt arrange P p (c_challenge c) d (c_vdf_height c) = true).
  Proof.
    intros P pl c pool p R HR. unfold lookup_plot.
    destruct (check_plot_filter Or P (c_challenge c) (h_plot_id (p_header pl))) eqn:EF; [|split; intros []].
    destruct (get_qualities Or srt arrange pl _ (plot_filter P)) as [qs|] eqn:EQ; [|split; intros []].
    assert (G : forall q, In (Some q) qs -> In p (fst (try_quality Or srt arrange P pl c pool q)) \/ In p (snd (try_quality Or srt arrange P pl c pool q)) ->
      (In p (snd (try_quality Or srt arrange P pl c pool q)) -> verify_proof Or srt arrange P p (c_challenge c) (c_difficulty c) (c_vdf_height c) = true) /\
      (In p (fst (try_quality Or srt arrange P pl c pool q)) -> exists d, pool = Some d /\ verify_proof Or srt arrange P p (c_challenge c) d (c_vdf_height c) = true)).
    { intros q Hq Hin. destruct (quality_in _ _ _ _ _ R EQ Hq) as (is & EI & Hi & Hm & Hp).
      destruct (tried P pl c pool q p R Hm Hp Hin) as (xo & d & diff & HG & Ep & Hs & Ht & Hok).
      destruct (find_sound _ _ _ _ (rp_parks _ R) EI _ Hi) as [_ HW].
      pose proof (entry_accepted P pl c _ _ _ diff R HR HG EF HW) as HE. cbv zeta in HE. rewrite <- Ep in HE.
      pose proof (HE) as HE2. cbv zeta in Hok. rewrite Hok in HE2.
      assert (Hdiff : pf_difficulty p = diff) by (rewrite Ep; reflexivity).
      split.
      - intros H. specialize (Hs H). assert (Ed : diff = c_difficulty c) by (rewrite <- Hdiff, Hs; reflexivity). rewrite Ed in HE2. exact HE2.
      - intros H. destruct (Ht H) as (d' & -> & E'). exists d'. split; [reflexivity|]. assert (Ed : diff = d') by (rewrite <- Hdiff, E'; reflexivity). rewrite Ed in HE2. exact HE2. }
    cbn [fst snd]. split; intros Hin; apply in_flat_map in Hin; destruct Hin as (o & Ho & Hin); apply in_flat_map in Ho; destruct Ho as (q & Hq & Ho);
      (destruct q as [q|]; [|contradiction]); destruct Ho as [<-|[]]; destruct (G q Hq) as [G1 G2]; auto.
  Qed.
End Plots.
