Require Import List Arith NArith ZArith Lia Bool Btauto.
From Verif Require Import BytesLib BitsLib CodecModel CodecSpec.
Import ListNotations.
Open Scope N_scope.

Lemma some_pair_inj : forall (A B : Type) (a c : A) (b d : B), Some (a, b) = Some (c, d) -> a = c /\ b = d.
Proof. intros. split; congruence. Qed.

(** *** Tree hash *)
Section TREE.
  Variable sha : bytes -> bytes.
  Hypothesis sha_len : forall x, length (sha x) = 32%nat.
  Definition leaf (b : bytes) : Prop := length b = 32%nat.

  Lemma pair_ind (P : list bytes -> Prop) : P [] -> (forall a, P [a]) -> (forall a b l, P l -> P (a :: b :: l)) -> forall l, P l.
  Proof.
    intros H0 H1 H2. fix IH 1. intros [|a [|b l]]; [apply H0|apply H1|apply H2, IH].
  Qed.
  Lemma next_level_leaf : forall l, Forall leaf l -> Forall leaf (next_level sha l).
  Proof.
    induction l using pair_ind; intros F; simpl; auto. inversion F as [|? ? ? F1]; subst. inversion F1; subst.
    constructor; [apply sha_len|auto].
  Qed.
  Lemma next_level_length : forall l, length (next_level sha l) = (length l - length l / 2)%nat.
  Proof.
    induction l using pair_ind; [reflexivity|reflexivity|]. cbn [next_level length]. rewrite IHl.
    replace (S (S (length l))) with (length l + 1 * 2)%nat by lia. rewrite Nat.div_add by lia.
    pose proof (Nat.div_le_upper_bound (length l) 2 (length l) ltac:(lia) ltac:(lia)). lia.
  Qed.
  Lemma level_up_eq : forall l, level_up sha l = next_level sha l.
  Proof.
    intros l. unfold level_up. induction l using pair_ind; [reflexivity|reflexivity|].
    cbn [pairs map next_level length]. replace (Nat.even (S (S (length l)))) with (Nat.even (length l)) by reflexivity.
    rewrite <- IHl, <- app_comm_cons. f_equal. f_equal. destruct l; reflexivity.
  Qed.
  Lemma collision_mono : forall a b a' b', incl a a' -> incl b b' -> collision_between sha a b -> collision_between sha a' b'.
  Proof. intros a b a' b' Ha Hb (x & y & Hx & Hy & Ne & E). exists x, y. auto. Qed.
  Lemma next_level_inj : forall l1 l2, Forall leaf l1 -> Forall leaf l2 -> length l1 = length l2 ->
    next_level sha l1 = next_level sha l2 -> l1 = l2 \/ collision_between sha (pairs l1) (pairs l2).
  Proof.
    induction l1 using pair_ind; intros l2 F1 F2 HL E.
    - destruct l2; [auto|discriminate].
    - destruct l2 as [|c [|d l2]]; try discriminate. auto.
    - destruct l2 as [|c [|d l2]]; try discriminate. cbn [next_level] in E. injection E as E1 E2.
      inversion F1 as [|? ? La F1']; subst. inversion F1'; subst. inversion F2 as [|? ? Lc F2']; subst. inversion F2'; subst.
      assert (HL' : length l1 = length l2) by (simpl in HL; lia). cbn [pairs].
      destruct (IHl1 l2) as [->|C]; auto.
      2:{ right. revert C. apply collision_mono; apply incl_tl, incl_refl. }
      destruct (list_eq_dec N.eq_dec (a ++ b) (c ++ d)) as [Eq|Ne].
      + apply app_len_inj in Eq; [|unfold leaf in *; lia]. destruct Eq as [E3 E4]. left. now rewrite E3, E4.
      + right. exists (a ++ b), (c ++ d). repeat split; auto; left; reflexivity.
  Qed.
  Lemma btree_inj : forall f l1 l2, Forall leaf l1 -> Forall leaf l2 -> length l1 = length l2 -> (length l1 <= f)%nat ->
    btree sha f l1 = btree sha f l2 -> l1 = l2 \/ collision_between sha (tree_inputs sha f l1) (tree_inputs sha f l2).
  Proof.
    induction f as [|f IH]; intros l1 l2 F1 F2 HL HF E.
    - destruct l1, l2; simpl in *; try discriminate; try lia. auto.
    - cbn [btree] in E. rewrite <- HL in E. destruct (Nat.ltb_spec 1 (length l1)) as [L|L].
      + cbn [tree_inputs]. rewrite !level_up_eq. apply IH in E.
        * destruct E as [E|C].
          -- apply next_level_inj in E; auto. destruct E as [E|C]; auto. right. revert C.
             apply collision_mono; apply incl_appl, incl_refl.
          -- right. revert C. apply collision_mono; apply incl_appr, incl_refl.
        * now apply next_level_leaf.
        * now apply next_level_leaf.
        * rewrite !next_level_length. now rewrite HL.
        * rewrite next_level_length. assert (1 <= length l1 / 2)%nat by (apply Nat.div_le_lower_bound; lia). lia.
      + destruct l1 as [|x [|? ?]], l2 as [|y [|? ?]]; simpl in *; try discriminate; try lia; subst; auto.
  Qed.
  Lemma btree_unfold : forall l, (1 < length l)%nat ->
    calc_btree_hash sha l = calc_btree_hash sha (next_level sha l).
  Proof.
    assert (K : forall f g l, (length l <= f)%nat -> (length l <= g)%nat -> btree sha f l = btree sha g l).
    { induction f as [|f IH]; intros g l Hf Hg.
      - destruct l; simpl in *; [|lia]. destruct g; reflexivity.
      - destruct g as [|g].
        + destruct l; simpl in *; [reflexivity|lia].
        + cbn [btree]. destruct (Nat.ltb_spec 1 (length l)); [|reflexivity].
          assert (1 <= length l / 2)%nat by (apply Nat.div_le_lower_bound; lia).
          apply IH; rewrite next_level_length; lia. }
    intros l H. unfold calc_btree_hash. destruct (length l) as [|n] eqn:E; [lia|]. cbn [btree].
    rewrite E. replace (1 <? S n)%nat with true by (symmetry; apply Nat.ltb_lt; lia).
    assert (1 <= length l / 2)%nat by (apply Nat.div_le_lower_bound; lia).
    apply K; rewrite next_level_length; lia.
  Qed.
  Lemma tx_hash_binds : forall TX (ser : TX -> bytes) l1 l2, length l1 = length l2 ->
    calc_tx_hash sha ser l1 = calc_tx_hash sha ser l2 ->
    map ser l1 = map ser l2 \/ collision_between sha (hashed sha ser l1) (hashed sha ser l2).
  Proof.
    intros TX ser l1 l2 HL E. unfold calc_tx_hash, calc_btree_hash in E. rewrite !map_length, <- HL in E.
    unfold hashed. rewrite <- HL.
    apply btree_inj in E; try (rewrite !map_length; lia).
    - destruct E as [E|C]; [|right; revert C; apply collision_mono; apply incl_appr, incl_refl].
      assert (K : map ser l1 = map ser l2 \/ collision_between sha (map ser l1) (map ser l2)).
      2:{ destruct K as [K|C]; [auto|]. right. revert C. apply collision_mono; apply incl_appl, incl_refl. }
      clear -E. revert l2 E. induction l1 as [|a l1 IH]; intros [|b l2] E; try discriminate; auto.
      simpl in E. injection E as E1 E2. destruct (IH l2 E2) as [E3|C].
      2:{ right. revert C. apply collision_mono; apply incl_tl, incl_refl. }
      destruct (list_eq_dec N.eq_dec (ser a) (ser b)) as [Eq|Ne].
      + left. simpl. rewrite Eq, E3. reflexivity.
      + right. exists (ser a), (ser b). repeat split; auto; left; reflexivity.
    - apply Forall_map, Forall_forall. intros; apply sha_len.
    - apply Forall_map, Forall_forall. intros; apply sha_len.
  Qed.
End TREE.

(** *** Recovery phrase *)
Section WORDS.
  Variable sha : bytes -> bytes.
  Context {W : Type} (weq : forall a b : W, {a = b} + {a <> b}).
  Variable wl : list W.
  Hypothesis ND : NoDup wl.
  Hypothesis WL : length wl = 2048%nat.
  Hypothesis sha_ok : forall x, bytes_ok (sha x).

  Lemma word_index_sound : forall w l k j, word_index weq w l k = Some j ->
    k <= j /\ nth_error l (N.to_nat (j - k)) = Some w.
  Proof.
    intros w l. induction l as [|x l IH]; intros k j H; [discriminate|]. cbn [word_index] in H.
    destruct (word_index weq w l (k + 1)) as [j'|] eqn:E.
    - injection H as ->. apply IH in E. destruct E as [E1 E2]. split; [lia|].
      replace (N.to_nat (j - k)) with (S (N.to_nat (j - (k + 1)))) by lia. exact E2.
    - destruct (weq w x) as [->|]; [|discriminate]. injection H as ->. split; [lia|]. rewrite N.sub_diag. reflexivity.
  Qed.
  Lemma word_index_complete : forall w l k i, nth_error l i = Some w -> word_index weq w l k <> None.
  Proof.
    intros w l. induction l as [|x l IH]; intros k [|i] H; try discriminate; cbn [word_index].
    - injection H as ->. destruct (word_index weq w l (k + 1)); [discriminate|]. destruct (weq w w); congruence.
    - specialize (IH (k + 1) i H). destruct (word_index weq w l (k + 1)); congruence.
  Qed.
  Lemma word_index_nth : forall w i, nth_error wl i = Some w -> word_index weq w wl 0 = Some (N.of_nat i).
  Proof.
    intros w i H. pose proof (word_index_complete w wl 0 i H) as C.
    destruct (word_index weq w wl 0) as [j|] eqn:E; [|congruence]. f_equal.
    apply word_index_sound in E. destruct E as [_ E]. rewrite N.sub_0_r in E.
    assert (N.to_nat j = i); [|lia].
    rewrite NoDup_nth_error in ND. apply ND; [|congruence]. apply nth_error_Some. congruence.
  Qed.
  Lemma word_index_lt : forall w i, word_index weq w wl 0 = Some i -> i < 2048 /\ nth_error wl (N.to_nat i) = Some w.
  Proof.
    intros w i H. apply word_index_sound in H. rewrite N.sub_0_r in H. destruct H as [_ H]. split; auto.
    assert (N.to_nat i < length wl)%nat by (apply nth_error_Some; congruence). lia.
  Qed.

  Lemma indices_lt : forall n b, Forall (fun i => i < 2048) (seed_indices n b).
  Proof. induction n; intros; simpl; constructor; auto. rewrite land_2047. now apply N.mod_lt. Qed.
  Lemma indices_length : forall n b, length (seed_indices n b) = n.
  Proof. induction n; intros; simpl; auto. Qed.
  Lemma indices_step : forall n b, seed_indices (S n) b = b mod 2048 :: seed_indices n (b / 2048).
  Proof. intros. cbn [seed_indices]. rewrite land_2047, N.shiftr_div_pow2. reflexivity. Qed.

  (** words named by indices *)
  Definition named (idx : list N) (ws : list W) : Prop := Forall2 (fun i w => nth_error wl (N.to_nat i) = Some w) idx ws.

  Lemma named_length : forall idx ws, named idx ws -> length idx = length ws.
  Proof. induction 1; simpl; auto. Qed.
  Lemma named_exists : forall idx, Forall (fun i => i < 2048) idx -> exists ws, named idx ws.
  Proof.
    induction 1 as [|i idx Hi F [ws IH]]; [exists []; constructor|].
    destruct (nth_error wl (N.to_nat i)) as [w|] eqn:E.
    - exists (w :: ws). constructor; auto.
    - apply nth_error_None in E. lia.
  Qed.
  Lemma named_rev : forall idx ws, named idx ws -> named (rev idx) (rev ws).
  Proof.
    induction 1; [constructor|]. simpl. apply Forall2_app; auto. 
  Qed.
  Lemma named_fun : forall idx ws ws', named idx ws -> named idx ws' -> ws = ws'.
  Proof.
    intros idx ws ws' H. revert ws'. induction H as [|i w idx ws Hi H IH]; intros ws' H'; inversion H'; subst; auto.
    f_equal; [congruence|auto].
  Qed.

  Lemma build_words : forall idx ws, named idx ws ->
    fold_right (fun i acc => match nth_error wl (N.to_nat i), acc with
                             | Some w, Some l => Some (l ++ [w])
                             | _, _ => None
                             end) (Some []) idx = Some (rev ws).
  Proof. induction 1; simpl; auto. rewrite H, IHForall2. reflexivity. Qed.

  Lemma read_step : forall n s b ws rest, named (rev (seed_indices n b)) ws ->
    s * 2048 ^ N.of_nat n + b mod 2048 ^ N.of_nat n < 2 ^ 253 ->
    forall k, read_words weq wl (ws ++ rest) (n + k) s
      = read_words weq wl rest k (s * 2048 ^ N.of_nat n + b mod 2048 ^ N.of_nat n).
  Proof.
    induction n as [|n IH]; intros s b ws rest Hn Hb k.
    - inversion Hn; subst. simpl. rewrite N.mod_1_r, N.mul_1_r, N.add_0_r. reflexivity.
    - rewrite indices_step in Hn. cbn [rev] in Hn. apply Forall2_app_inv_l in Hn.
      destruct Hn as (ws1 & ws2 & H1 & H2 & ->). inversion H2 as [|? w ? ? Hw H3]; subst. inversion H3; subst.
      rewrite <- app_assoc. replace (S n + k)%nat with (n + S k)%nat by lia.
      assert (E : s * 2048 ^ N.of_nat (S n) + b mod 2048 ^ N.of_nat (S n)
                  = (s * 2048 ^ N.of_nat n + (b / 2048) mod 2048 ^ N.of_nat n) * 2048 + b mod 2048).
      { rewrite Nat2N.inj_succ, N.pow_succ_r', N.mod_mul_r by (try discriminate; now apply N.pow_nonzero). ring. }
      rewrite E in Hb |- *. clear E. 
      assert (b mod 2048 < 2 ^ 11) by (now apply N.mod_lt).
      specialize (IH s (b / 2048) ws1 ([w] ++ rest) H1).
      set (s' := s * 2048 ^ N.of_nat n + _) in *. clearbody s'.
      assert (Hw' : nth_error wl (N.to_nat (b mod 2048)) = Some w) by exact Hw. clear Hw H2.
      revert Hb Hw' H. generalize (b mod 2048). intros r Hb Hw H.
      rewrite IH by lia. cbn [app read_words].
      rewrite (word_index_nth _ _ Hw), N2Nat.id.
      rewrite N.mod_small by (rewrite N.shiftl_mul_pow2; change (2 ^ 11) with 2048 in *; lia).
      rewrite lor_shiftl_add by auto. reflexivity.
  Qed.

  Lemma checksum_lt : forall x b, checksum sha x b < 256.
  Proof.
    intros. unfold checksum. set (l := sha _). assert (H : bytes_ok l) by apply sha_ok.
    destruct l as [|c l]; simpl; [lia|]. now inversion H.
  Qed.

  Lemma first_index : forall bits, N.lor (N.shiftl (N.land bits 7) 8) (N.land (checksum sha bits true) 255)
    = bits mod 8 * 256 + checksum sha bits true.
  Proof.
    intros. pose proof (checksum_lt bits true). rewrite land_7, land_255, (N.mod_small (checksum sha bits true)) by auto.
    rewrite lor_shiftl_add by auto. reflexivity.
  Qed.

  Lemma seed_words : forall seed, exists front w,
    named (rev (seed_indices 23 (of_le seed / 8))) front /\
    nth_error wl (N.to_nat (of_le seed mod 8 * 256 + checksum sha (of_le seed) true)) = Some w /\
    seed_to_words sha seed wl = Some (front ++ [w]).
  Proof.
    intros seed. set (b := of_le seed).
    destruct (named_exists (seed_indices 23 (b / 8)) (indices_lt _ _)) as [ws Hws].
    pose proof (checksum_lt b true) as Hc. pose proof (N.mod_lt b 8 ltac:(discriminate)) as Hm.
    destruct (nth_error wl (N.to_nat (b mod 8 * 256 + checksum sha b true))) as [w|] eqn:E.
    2:{ apply nth_error_None in E. lia. }
    exists (rev ws), w. split; [now apply named_rev|]. split; [reflexivity|].
    unfold seed_to_words. rewrite WL. simpl negb. cbv iota. fold b. rewrite first_index, N.shiftr_div_pow2.
    change (2 ^ 3) with 8. rewrite (build_words _ (w :: ws)); [reflexivity|]. constructor; auto.
  Qed.

  Lemma indices23_full : forall x, x < 2 ^ 253 -> x mod 2048 ^ N.of_nat 23 = x.
  Proof. intros. apply N.mod_small. exact H. Qed.

  Lemma words_round_trip : forall seed, length seed = 32%nat -> bytes_ok seed ->
    exists words, seed_to_words sha seed wl = Some words /\ length words = 24%nat /\ Forall (fun w => In w wl) words /\
      words_to_seed sha weq words wl = Some seed.
  Proof.
    intros seed HL HB. destruct (seed_words seed) as (front & w & Hf & Hw & E). exists (front ++ [w]).
    set (b := of_le seed) in *.
    assert (Lf : length front = 23%nat) by (apply named_length in Hf; rewrite rev_length, indices_length in Hf; auto).
    split; [exact E|]. split; [rewrite app_length, Lf; reflexivity|]. split.
    { apply Forall_app. split; [|constructor; [eapply nth_error_In; eauto|constructor]].
      clear -Hf. induction Hf; constructor; auto. eapply nth_error_In; eauto. }
    unfold words_to_seed. rewrite app_length, Lf, WL. cbn [length Nat.add Nat.eqb negb].
    assert (Bb : b < 2 ^ 256) by (pose proof (of_le_bound seed HB) as B; rewrite HL in B; exact B).
    assert (B8 : b / 8 < 2 ^ 253) by (apply N.div_lt_upper_bound; [discriminate|exact Bb]).
    pose proof (checksum_lt b true) as Hc. pose proof (N.mod_lt b 8 ltac:(discriminate)) as Hm.
    assert (R : read_words weq wl (front ++ [w]) 23 0 = Some (b, checksum sha b true)).
    { pose proof (read_step 23 0 (b / 8) front [w] Hf) as R. rewrite indices23_full, N.mul_0_l, N.add_0_l in R by auto.
      specialize (R B8 0%nat). change (23 + 0)%nat with 23%nat in R. rewrite R.
      cbn [read_words]. rewrite (word_index_nth _ _ Hw), N2Nat.id.
      assert (b = b / 8 * 8 + b mod 8) as Eb by (rewrite (N.mul_comm (b / 8)); apply N.div_mod; discriminate).
      set (q := b / 8) in *. set (r := b mod 8) in *. set (c := checksum sha b true) in *. clearbody q r c.
      rewrite N.shiftr_div_pow2. change (2 ^ 8) with 256. rewrite N.div_add_l, (N.div_small c), N.add_0_r by (auto; discriminate).
      rewrite land_255, N.add_comm, N.mod_add, (N.mod_small c) by (auto; discriminate).
      rewrite N.mod_small by (rewrite N.shiftl_mul_pow2; change (2 ^ 3) with 8; lia).
      rewrite lor_shiftl_add by auto. now rewrite Eb. }
    rewrite R, N.eqb_refl, andb_false_r. f_equal. unfold b. rewrite <- HL. now apply le_of_le.
  Qed.

  (** what an accepted phrase looks like *)
  Lemma read_inv : forall n ws s0 seed cs, length ws = S n -> s0 * 2048 ^ N.of_nat n + 2048 ^ N.of_nat n <= 2 ^ 253 ->
    read_words weq wl ws n s0 = Some (seed, cs) ->
    exists front w i v, ws = front ++ [w] /\ nth_error wl (N.to_nat i) = Some w /\ i < 2048 /\
      cs = i mod 256 /\ v < 2048 ^ N.of_nat n /\ named (rev (seed_indices n v)) front /\
      seed = (s0 * 2048 ^ N.of_nat n + v) * 8 + i / 256.
  Proof.
    induction n as [|n IH]; intros ws s0 seed cs HL HB H.
    - destruct ws as [|w [|? ?]]; simpl in HL; try lia. cbn [read_words] in H.
      destruct (word_index weq w wl 0) as [i|] eqn:E; [|discriminate]. apply some_pair_inj in H. destruct H as [<- <-].
      apply word_index_lt in E. destruct E as [E1 E2].
      exists [], w, i, 0. split; [reflexivity|]. split; [exact E2|]. split; [exact E1|]. split; [apply land_255|].
      split; [reflexivity|]. split; [constructor|]. change (2048 ^ N.of_nat 0) with 1 in *.
      rewrite N.shiftr_div_pow2. change (2 ^ 8) with 256. rewrite N.mod_small by (rewrite N.shiftl_mul_pow2; change (2 ^ 3) with 8; lia).
      rewrite lor_shiftl_add by (change (2 ^ 3) with 8; apply N.div_lt_upper_bound; [discriminate|lia]).
      change (2 ^ 3) with 8. lia.
    - destruct ws as [|w ws]; simpl in HL; try lia. cbn [read_words] in H.
      destruct (word_index weq w wl 0) as [i|] eqn:E; [|discriminate].
      apply word_index_lt in E. destruct E as [E1 E2].
      rewrite Nat2N.inj_succ, N.pow_succ_r' in *. set (P := 2048 ^ N.of_nat n) in *.
      assert (P1 : 1 <= P) by (assert (P <> 0) by (now apply N.pow_nonzero); lia).
      rewrite N.mod_small in H by (rewrite N.shiftl_mul_pow2; change (2 ^ 11) with 2048; nia).
      rewrite lor_shiftl_add in H by (change (2 ^ 11) with 2048; lia). change (2 ^ 11) with 2048 in H.
      apply IH in H; [|lia|fold P; nia].
      destruct H as (front & w' & i' & v & -> & Hw' & Hi' & Hcs & Hv & Hf & Hs). fold P in Hv, Hs.
      exists (w :: front), w', i', (i * P + v). split; [reflexivity|]. split; [exact Hw'|]. split; [exact Hi'|].
      split; [exact Hcs|]. split; [nia|]. split; [|rewrite Hs; ring].
      clear -Hf E1 E2 Hv. 
      assert (K : forall n v i, v < 2048 ^ N.of_nat n -> i < 2048 ->
        rev (seed_indices (S n) (i * 2048 ^ N.of_nat n + v)) = i :: rev (seed_indices n v)).
      { clear. induction n as [|n IH]; intros v i Hv Hi.
        - simpl in Hv. assert (v = 0) by lia. subst. change (2048 ^ N.of_nat 0) with 1. rewrite indices_step.
          simpl. rewrite N.mod_small by lia. f_equal. lia.
        - rewrite indices_step. rewrite Nat2N.inj_succ, N.pow_succ_r' in *.
          rewrite (indices_step n v). cbn [rev].
          replace (i * (2048 * 2048 ^ N.of_nat n) + v) with (v + (i * 2048 ^ N.of_nat n) * 2048) by ring.
          rewrite N.mod_add, N.div_add by discriminate. rewrite (N.add_comm (v / 2048)), IH; auto.
          apply N.div_lt_upper_bound; [discriminate|exact Hv]. }
      unfold P in *. rewrite K by auto. constructor; auto.
  Qed.

  Lemma words_accepted : forall words seed, words_to_seed sha weq words wl = Some seed ->
    length seed = 32%nat /\ bytes_ok seed /\
    exists good w i, seed_to_words sha seed wl = Some good /\
      words = firstn 23 good ++ [w] /\ nth_error wl (N.to_nat i) = Some w /\ i / 256 = of_le seed mod 8 /\
      (i mod 256 = checksum sha (of_le seed) true \/ i mod 256 = checksum sha (of_le seed) false).
  Proof.
    intros words seed H. unfold words_to_seed in H.
    destruct (Nat.eqb_spec (length words) 24) as [HL|]; [|discriminate]. rewrite WL in H. cbn [negb Nat.eqb] in H.
    destruct (read_words weq wl words 23 0) as [[s cs]|] eqn:R; [|discriminate].
    apply read_inv in R; [|exact HL|vm_compute; discriminate].
    destruct R as (front & w & i & v & -> & Hw & Hi & -> & Hv & Hf & Hs).
    rewrite N.mul_0_l, N.add_0_l in Hs.
    destruct (negb (i mod 256 =? checksum sha s false) && negb (i mod 256 =? checksum sha s true)) eqn:C; [discriminate|].
    assert (Hse : le_bytes 32 s = seed) by congruence. clear H. subst seed. split; [apply le_length|]. split; [apply le_ok|].
    assert (Hi8 : i / 256 < 8) by (apply N.div_lt_upper_bound; [discriminate|exact Hi]).
    assert (Hsb : s < 2 ^ 256) by (change (2048 ^ N.of_nat 23) with (2 ^ 253) in Hv; lia).
    rewrite (of_le_le_small 32 s) by exact Hsb.
    destruct (seed_words (le_bytes 32 s)) as (front' & w' & Hf' & Hw' & E).
    rewrite (of_le_le_small 32 s) in * by exact Hsb.
    assert (s / 8 = v) by (rewrite Hs, N.add_comm, N.div_add, N.div_small by (auto; discriminate); lia).
    assert (s mod 8 = i / 256) by (rewrite Hs, N.add_comm, N.mod_add, N.mod_small by (auto; discriminate); lia).
    rewrite H in Hf'. assert (front' = front) by (eapply named_fun; eauto). subst front'.
    exists (front ++ [w']), w, i. split; [exact E|]. 
    assert (Lf : length front = 23%nat) by (apply named_length in Hf; rewrite rev_length, indices_length in Hf; auto).
    split; [rewrite <- Lf, firstn_app, firstn_all, Nat.sub_diag; simpl; now rewrite app_nil_r|].
    split; [exact Hw|]. split; [congruence|].
    apply andb_false_iff in C. rewrite !negb_false_iff, !N.eqb_eq in C. tauto.
  Qed.
End WORDS.
