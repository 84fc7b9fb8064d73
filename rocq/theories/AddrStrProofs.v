(** From checksums to address strings. *)
Require Import List Arith NArith Bool Lia Btauto.
Require Import Verif.BytesLib Verif.BitsLib Verif.CodecModel Verif.AddrProofs Verif.AddrErrSpec Verif.AddrErrProofs.
Import ListNotations.
Open Scope N_scope.

Lemma split_app s : forall a b, split_last1 s = Some (a, b) -> s = a ++ 49 :: b.
Proof.
  induction s as [|c s IH]; intros a b H; [discriminate|]. cbn [split_last1] in H. destruct (split_last1 s) as [[a' b']|] eqn:E.
  - inversion H; subst. cbn. f_equal. apply IH. reflexivity.
  - destruct (c =? 49) eqn:C; [|discriminate]. inversion H; subst. apply N.eqb_eq in C. subst. reflexivity.
Qed.
Lemma map_opt_length {A B} (f : A -> option B) l : forall r, map_opt f l = Some r -> length r = length l.
Proof. induction l as [|x l IH]; intros r H; cbn in H; [inversion H; reflexivity|]. destruct (f x); [|discriminate]. destruct (map_opt f l); [|discriminate]. inversion H; subst. cbn. f_equal. auto. Qed.
Lemma index_char c l : forall i v, char_index c l i = Some v -> i <= v /\ v < i + N.of_nat (length l) /\ nth (N.to_nat (v - i)) l 0 = c.
Proof.
  induction l as [|x l IH]; intros i v H; cbn [char_index] in H; [discriminate|]. destruct (c =? x) eqn:E.
  - inversion H; subst. apply N.eqb_eq in E. subst. rewrite N.sub_diag. cbn [length nth]. repeat split; lia.
  - apply IH in H as (A & B & C). cbn [length]. replace (N.to_nat (v - i)) with (S (N.to_nat (v - (i + 1)))) by lia. cbn [nth]. repeat split; auto; lia.
Qed.
Lemma index_ok c v : char_index c b32_charset 0 = Some v -> v < 32 /\ b32_char v = c.
Proof. intros H. apply index_char in H as (A & B & C). rewrite N.sub_0_r in C. split; [exact B|exact C]. Qed.
Lemma map_opt_index data : forall vs, map_opt (fun c => char_index c b32_charset 0) data = Some vs -> five vs /\ data = map b32_char vs.
Proof.
  induction data as [|c data IH]; intros vs H; cbn [map_opt] in H; [inversion H; split; [constructor|reflexivity]|].
  destruct (char_index c b32_charset 0) as [v|] eqn:E; [|discriminate]. destruct (map_opt _ data) as [r|] eqn:M; [|discriminate]. inversion H; subst.
  destruct (IH r eq_refl) as [F ->]. apply index_ok in E as [V <-]. split; [constructor; auto|reflexivity].
Qed.

Lemma wrong_cons a s b t : wrong (a :: s) (b :: t) = ((if (a =? b)%N then 0 else 1) + wrong s t)%nat.
Proof. unfold wrong. cbn [combine filter fst snd]. destruct (a =? b); reflexivity. Qed.
Lemma wrong_app s1 t1 s2 t2 : length s1 = length t1 -> wrong (s1 ++ s2) (t1 ++ t2) = (wrong s1 t1 + wrong s2 t2)%nat.
Proof.
  revert t1. induction s1 as [|a s1 IH]; intros [|b t1] L; try discriminate; [reflexivity|]. cbn [app]. rewrite !wrong_cons, IH by (cbn in L; lia). lia.
Qed.
Lemma wrong_lower s t : length s = length t -> map lower s = s -> (wrong s (map lower t) <= wrong s t)%nat.
Proof.
  revert t. induction s as [|a s IH]; intros [|b t] L E; try discriminate; [cbn; lia|]. cbn [map] in *. inversion E as [[E1 E2]]. rewrite !wrong_cons. rewrite E1, E2. cbn in L. specialize (IH t ltac:(lia) E2).
  destruct (a =? b) eqn:AB; [|destruct (a =? lower b); lia]. apply N.eqb_eq in AB. subst b. rewrite E1, N.eqb_refl. lia.
Qed.
Lemma wrong_chars us vs : five us -> five vs -> length us = length vs ->
  wrong (map b32_char us) (map b32_char vs) = nz (map (fun p => N.lxor (fst p) (snd p)) (combine us vs)).
Proof.
  intros F. revert vs. induction F as [|u us U F IH]; intros [|v vs] G L; try discriminate; [reflexivity|]. inversion G; subst. cbn [map combine fst snd]. rewrite wrong_cons, nz_cons, IH; auto.
  f_equal. destruct (N.eq_dec u v) as [->|NE].
  - rewrite N.lxor_nilpotent, !N.eqb_refl. reflexivity.
  - replace (N.lxor u v =? 0) with false by (symmetry; apply N.eqb_neq; intros X; apply N.lxor_eq in X; contradiction).
    replace (b32_char u =? b32_char v) with false; [reflexivity|]. symmetry. apply N.eqb_neq. intros X. apply NE.
    destruct (char_facts u U) as (X1 & _). destruct (char_facts v H1) as (X2 & _). rewrite X in X1. cbv zeta in X1, X2. congruence.
Qed.
Lemma xor_five us vs : five us -> five vs -> five (map (fun p => N.lxor (fst p) (snd p)) (combine us vs)).
Proof.
  intros F. revert vs. induction F as [|u us U F IH]; intros vs G; [constructor|]. destruct vs as [|v vs]; [constructor|]. inversion G; subst. cbn [combine map fst snd]. constructor; [|apply IH; assumption].
  change 32 with (2 ^ 5). apply lxor_lt_pow2; assumption.
Qed.
Lemma nz0_eq us vs : length us = length vs -> nz (map (fun p => N.lxor (fst p) (snd p)) (combine us vs)) = 0%nat -> us = vs.
Proof.
  revert vs. induction us as [|u us IH]; intros [|v vs] L Z; try discriminate; [reflexivity|]. cbn [combine map fst snd] in Z. rewrite nz_cons in Z. destruct (N.lxor u v =? 0) eqn:E; [|lia].
  apply N.eqb_eq, N.lxor_eq in E. subst. f_equal. apply IH; [cbn in L; lia|lia].
Qed.

(** what is known of a string of the length of an address that is accepted *)
Lemma accepted s b : length s = 62%nat -> addr_from_string s = Some b ->
  exists c1 c2 c3 vs, map lower s = [c1; c2; c3; 49] ++ map b32_char vs /\ five vs /\ length vs = 58%nat /\
    b32_polymod (b32_expand [c1; c2; c3] ++ vs) = b32m_const /\ b = addr_of_groups (firstn 52 vs) /\
    Forall (fun c => 33 <= c /\ c <= 126) [c1; c2; c3].
Proof.
  intros L H. unfold addr_from_string in H. destruct (list_eq_dec N.eq_dec s [77; 77; 88]) as [->|_]; [discriminate|].
  destruct (b32m_decode s) as [dp|] eqn:D; [|discriminate]. destruct (length dp =? 52)%nat eqn:LD; [|discriminate]. cbn [negb] in H. inversion H; subst. apply Nat.eqb_eq in LD.
  unfold b32m_decode in D. destruct ((90 <? length s)%nat || (length s <? 8)%nat); [discriminate|].
  destruct (forallb (fun c => (33 <=? c) && (c <=? 126)) s) eqn:R; [|discriminate]. cbn [negb] in D. destruct (existsb is_upper s && existsb is_lower s); [discriminate|].
  destruct (split_last1 (map lower s)) as [[hrp data]|] eqn:SP; [|discriminate]. destruct ((length hrp =? 0)%nat || (length data <? 6)%nat); [discriminate|].
  destruct (map_opt (fun c => char_index c b32_charset 0) data) as [vs|] eqn:M; [|discriminate]. destruct (b32_polymod (b32_expand hrp ++ vs) =? b32m_const) eqn:P; [|discriminate].
  inversion D; subst dp. apply N.eqb_eq in P. pose proof (map_opt_length _ _ _ M) as LM. apply map_opt_index in M as [F ->]. apply split_app in SP.
  rewrite firstn_length in LD. assert (LV : length vs = 58%nat) by lia.
  assert (LS : length (map lower s) = 62%nat) by (rewrite map_length; exact L). rewrite SP, app_length in LS. cbn [length] in LS. rewrite map_length, LV in LS.
  destruct hrp as [|c1 [|c2 [|c3 [|]]]]; cbn [length] in LS; try lia. exists c1, c2, c3, vs. rewrite LV. split; [exact SP|]. repeat (split; [assumption || reflexivity|]).
  assert (RL : Forall (fun c => 33 <= c /\ c <= 126) (map lower s)).
  { apply Forall_map, Forall_forall. intros c C. rewrite forallb_forall in R. specialize (R c C). apply andb_true_iff in R as [R1 R2]. apply N.leb_le in R1, R2.
    unfold lower. destruct ((65 <=? c) && (c <=? 90)) eqn:U; [|split; assumption]. apply andb_true_iff in U as [U1 U2]. apply N.leb_le in U1, U2. lia. }
  rewrite SP in RL. apply Forall_app in RL as [RL _]. exact RL.
Qed.
(** the string of an address *)
Lemma written a : exists vs, addr_to_string a = [109; 109; 120; 49] ++ map b32_char vs /\ five vs /\ length vs = 58%nat /\
  b32_polymod (b32_expand [109; 109; 120] ++ vs) = b32m_const /\ firstn 52 vs = addr_groups a /\ map lower (addr_to_string a) = addr_to_string a.
Proof.
  destruct (addr_groups_ok a) as [F L]. destruct (checksum_valid [109; 109; 120] (addr_groups a)) as (FC & LC & PC); [repeat constructor|exact F|].
  exists (addr_groups a ++ b32_checksum [109; 109; 120] (addr_groups a)).
  assert (FV : five (addr_groups a ++ b32_checksum [109; 109; 120] (addr_groups a))) by (apply Forall_app; auto).
  split; [reflexivity|]. split; [exact FV|]. split; [rewrite app_length; lia|]. split; [exact PC|]. split.
  - rewrite <- L, firstn_app, firstn_all, Nat.sub_diag. cbn [firstn]. apply app_nil_r.
  - unfold addr_to_string, b32_encode. cbn [app map]. change (lower 109) with 109. change (lower 120) with 120. change (lower 49) with 49. do 4 f_equal.
    rewrite map_map. apply map_ext_in. intros v Hv. unfold five in FV. rewrite Forall_forall in FV. now apply char_facts, FV.
Qed.
Lemma polymod_diff us vs : length us = length vs -> b32_polymod us = b32_polymod vs -> fold_left b32_step (map (fun p => N.lxor (fst p) (snd p)) (combine us vs)) 0 = 0.
Proof.
  intros L E. replace 0 with (N.lxor 1 1) at 1 by reflexivity. rewrite b32_fold_linear by exact L. unfold b32_polymod in E. rewrite E. apply N.lxor_nilpotent.
Qed.
Lemma fold_zeros n l : fold_left b32_step (repeat 0 n ++ l) 0 = fold_left b32_step l 0.
Proof. induction n as [|n IH]; [reflexivity|]. cbn [repeat app fold_left]. exact IH. Qed.
Lemma same_result a vs : length a = 32%nat -> bytes_ok a -> firstn 52 vs = addr_groups a -> addr_of_groups (firstn 52 vs) = a.
Proof. intros L B E. rewrite E. apply addr_groups_round; assumption. Qed.

Lemma found4 a s b : length a = 32%nat -> bytes_ok a -> length s = length (addr_to_string a) -> firstn 4 s = firstn 4 (addr_to_string a) -> (wrong (addr_to_string a) s <= 4)%nat ->
  addr_from_string s = Some b -> map lower s = addr_to_string a /\ b = a.
Proof.
  intros LA BA LS PRE W H. destruct (written a) as (us & EU & FU & LU & PU & GU & LO).
  assert (L62 : length s = 62%nat) by (rewrite LS, EU, app_length, map_length, LU; reflexivity).
  destruct (accepted s b L62 H) as (c1 & c2 & c3 & vs & EV & FV & LV & PV & -> & RC).
  pose proof (wrong_lower (addr_to_string a) s (eq_sym LS) LO) as WL.
  assert (HC : [c1; c2; c3; 49] = [109; 109; 120; 49]).
  { assert (X : firstn 4 (map lower s) = [109; 109; 120; 49]) by (rewrite firstn_map, PRE, EU; reflexivity). rewrite EV in X. cbn [app firstn] in X. exact X. }
  rewrite EU in W, WL. rewrite EV, HC, wrong_app in WL by reflexivity. rewrite wrong_chars in WL by (auto; congruence).
  inversion HC; subst c1 c2 c3. clear HC.
  assert (D : fold_left b32_step (map (fun p => N.lxor (fst p) (snd p)) (combine us vs)) 0 = 0).
  { pose proof (polymod_diff (b32_expand [109; 109; 120] ++ us) (b32_expand [109; 109; 120] ++ vs)) as D. rewrite !app_length, LU, LV in D. specialize (D eq_refl (eq_trans PU (eq_sym PV))). exact D. }
  set (ds := map (fun p => N.lxor (fst p) (snd p)) (combine us vs)) in *.
  assert (LD : length ds = 58%nat) by (unfold ds; rewrite map_length, combine_length; lia). assert (FD : five ds) by (apply xor_five; assumption).
  assert (Z : nz ds = 0%nat).
  { assert (NR : nz (rev ds) = nz ds). { unfold nz. clear. induction ds as [|d ds IH]; [reflexivity|]. cbn [rev]. rewrite filter_app, app_length, IH. cbn [filter]. destruct (negb (d =? 0)); cbn; lia. }
    rewrite <- NR. apply syn4; [apply Forall_rev; exact FD|rewrite rev_length; lia|rewrite NR; lia|]. rewrite <- syn_fold, rev_involutive. exact D. }
  apply nz0_eq in Z; [|congruence]. subst vs. split; [rewrite EV, EU; reflexivity|]. apply (same_result a); assumption.
Qed.

Lemma hi_lt c d : 33 <= c -> c <= 126 -> 33 <= d -> d <= 126 -> N.lxor (N.shiftr c 5) (N.shiftr d 5) < 4.
Proof.
  intros. change 4 with (2 ^ 2). apply lxor_lt_pow2; rewrite N.shiftr_div_pow2; change (2 ^ 5) with 32; change (2 ^ 2) with 4; apply N.div_lt_upper_bound; lia.
Qed.
Lemma lo_lt c d : N.lxor (N.land c 31) (N.land d 31) < 32.
Proof. change 32 with (2 ^ 5). apply lxor_lt_pow2; change 31 with (N.ones 5); rewrite N.land_ones; apply N.mod_lt; discriminate. Qed.
Lemma hi_lo c d : N.lxor (N.shiftr c 5) (N.shiftr d 5) = 0 -> N.lxor (N.land c 31) (N.land d 31) = 0 -> c = d.
Proof.
  intros H L. apply N.lxor_eq in H, L. change 31 with (N.ones 5) in L. rewrite !N.land_ones in L. rewrite !N.shiftr_div_pow2 in H.
  rewrite (N.div_mod c (2 ^ 5)), (N.div_mod d (2 ^ 5)) by discriminate. congruence.
Qed.
Lemma pw_lt i x : x < 2 ^ 30 -> pw i x < 2 ^ 30.
Proof. intros H. destruct i as [|i]; [exact H|]. rewrite <- pw_sh. apply sh_lt. Qed.
Lemma pw_inj i x : x < 2 ^ 30 -> pw i x = 0 -> x = 0.
Proof. intros H. induction i as [|i IH]; [auto|]. rewrite <- pw_sh. intros E. apply IH. apply sh_inj; [apply pw_lt; exact H|exact E]. Qed.
Lemma pw_add i j x : pw (i + j) x = pw j (pw i x).
Proof. induction j as [|j IH]; [rewrite Nat.add_0_r; reflexivity|]. rewrite Nat.add_succ_r, <- pw_sh, IH, pw_sh. reflexivity. Qed.
Lemma four_zero h l : h < 4 -> l < 32 -> N.lxor (pw 4 h) l = 0 -> h = 0 /\ l = 0.
Proof.
  intros H L E. assert (B : forallb (fun h => forallb (fun l => negb (N.lxor (pw 4 h) l =? 0) || ((h =? 0) && (l =? 0))) v32) [0; 1; 2; 3] = true) by (vm_compute; reflexivity).
  rewrite forallb_forall in B. assert (I : In h [0; 1; 2; 3]) by (assert (X : h = 0 \/ h = 1 \/ h = 2 \/ h = 3) by lia; cbn; intuition).
  specialize (B h I). rewrite forallb_forall in B. specialize (B l (in_v32 l L)). rewrite E in B. cbn [N.eqb negb orb] in B. apply andb_true_iff in B as [B1 B2]. apply N.eqb_eq in B1, B2. auto.
Qed.
Lemma hi_lo_pw i c d : 33 <= c /\ c <= 126 -> 33 <= d /\ d <= 126 ->
  (N.lxor (pw (4 + i) (N.lxor (N.shiftr c 5) (N.shiftr d 5))) (pw i (N.lxor (N.land c 31) (N.land d 31))) =? 0) = (c =? d).
Proof.
  intros [C1 C2] [D1 D2]. pose proof (hi_lt c d C1 C2 D1 D2) as HL. pose proof (lo_lt c d) as LL. set (h := N.lxor (N.shiftr c 5) (N.shiftr d 5)) in *. set (l := N.lxor (N.land c 31) (N.land d 31)) in *.
  rewrite pw_add, <- pw_linear. apply eq_true_iff_eq. rewrite !N.eqb_eq. split.
  - intros E. apply pw_inj in E.
    + apply four_zero in E as [E1 E2]; auto. apply hi_lo; assumption.
    + apply lxor_lt_pow2; [apply pw_lt|]; change (2 ^ 30) with 1073741824; lia.
  - intros ->. unfold h, l. rewrite !N.lxor_nilpotent. rewrite !pw_0. reflexivity.
Qed.
Lemma nz_weigh ds : five ds -> nz (weigh ds) = nz ds.
Proof.
  induction 1 as [|d ds D F IH]; [reflexivity|]. cbn [weigh]. rewrite !nz_cons, IH. replace (pw (length ds) d =? 0) with (d =? 0); [reflexivity|]. apply eq_true_iff_eq. rewrite !N.eqb_eq. split.
  - intros ->. apply pw_0.
  - apply pw_inj. change (2 ^ 30) with 1073741824. lia.
Qed.
Lemma found3 a s b : length a = 32%nat -> bytes_ok a -> length s = length (addr_to_string a) -> (wrong (addr_to_string a) s <= 3)%nat ->
  addr_from_string s = Some b -> map lower s = addr_to_string a /\ b = a.
Proof.
  intros LA BA LS W H. destruct (written a) as (us & EU & FU & LU & PU & GU & LO).
  assert (L62 : length s = 62%nat) by (rewrite LS, EU, app_length, map_length, LU; reflexivity).
  destruct (accepted s b L62 H) as (c1 & c2 & c3 & vs & EV & FV & LV & PV & -> & RC).
  pose proof (wrong_lower (addr_to_string a) s (eq_sym LS) LO) as WL.
  rewrite EU in W, WL. rewrite EV, wrong_app in WL by reflexivity. rewrite wrong_chars in WL by (auto; congruence). rewrite !wrong_cons in WL.
  set (ds := map (fun p => N.lxor (fst p) (snd p)) (combine us vs)) in *.
  assert (LD : length ds = 58%nat) by (unfold ds; rewrite map_length, combine_length; lia). assert (FD : five ds) by (apply xor_five; assumption).
  assert (R1 : 33 <= c1 /\ c1 <= 126) by (inversion RC; assumption). assert (R2 : 33 <= c2 /\ c2 <= 126) by (inversion RC as [|? ? _ RC2]; inversion RC2; assumption).
  assert (R3 : 33 <= c3 /\ c3 <= 126) by (inversion RC as [|? ? _ RC2]; inversion RC2 as [|? ? _ RC3]; inversion RC3; assumption).
  assert (M : 33 <= 109 /\ 109 <= 126) by lia. assert (X : 33 <= 120 /\ 120 <= 126) by lia.
  set (h1 := N.lxor (N.shiftr 109 5) (N.shiftr c1 5)). set (h2 := N.lxor (N.shiftr 109 5) (N.shiftr c2 5)). set (h3 := N.lxor (N.shiftr 120 5) (N.shiftr c3 5)).
  set (l1 := N.lxor (N.land 109 31) (N.land c1 31)). set (l2 := N.lxor (N.land 109 31) (N.land c2 31)). set (l3 := N.lxor (N.land 120 31) (N.land c3 31)).
  assert (D : fold_left b32_step ([h1; h2; h3; 0; l1; l2; l3] ++ ds) 0 = 0).
  { pose proof (polymod_diff (b32_expand [109; 109; 120] ++ us) (b32_expand [c1; c2; c3] ++ vs)) as D. rewrite !app_length, LU, LV in D. exact (D eq_refl (eq_trans PU (eq_sym PV))). }
  assert (NP : nz (parts h1 h2 h3 l1 l2 l3 ds) = ((if (109 =? c1)%N then 0 else 1) + ((if (109 =? c2)%N then 0 else 1) + ((if (120 =? c3)%N then 0 else 1) + nz ds)))%nat).
  { unfold parts. rewrite !nz_cons, nz_weigh by exact FD. unfold h1, h2, h3, l1, l2, l3.
    pose proof (hi_lo_pw 60 109 c1 M R1) as Q1. pose proof (hi_lo_pw 59 109 c2 M R2) as Q2. pose proof (hi_lo_pw 58 120 c3 X R3) as Q3. cbn [Nat.add] in Q1, Q2, Q3. rewrite Q1, Q2, Q3. reflexivity. }
  assert (Z : nz (parts h1 h2 h3 l1 l2 l3 ds) = 0%nat).
  { apply parts_zero; auto; try (unfold h1, h2, h3; apply hi_lt; tauto); try apply lo_lt. rewrite NP. pose proof (Nat.le_trans _ _ _ WL W) as WW. clear -WW. change (wrong [] []) with 0%nat in WW. change (if 49 =? 49 then 0%nat else 1%nat) with 0%nat in WW. destruct (109 =? c1), (109 =? c2), (120 =? c3); lia. }
  rewrite NP in Z. destruct (109 =? c1) eqn:E1; [|lia]. destruct (109 =? c2) eqn:E2; [|lia]. destruct (120 =? c3) eqn:E3; [|lia]. apply N.eqb_eq in E1, E2, E3. subst c1 c2 c3.
  assert (Z0 : nz ds = 0%nat) by lia. apply nz0_eq in Z0; [|congruence]. subst vs. split; [rewrite EV, EU; reflexivity|]. apply (same_result a); assumption.
Qed.
