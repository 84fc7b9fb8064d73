Require Import List Arith NArith ZArith Lia Bool Btauto.
From Verif Require Import BytesLib BitsLib CodecModel.
Import ListNotations.
Open Scope N_scope.

(** *** five-bit groups *)
Definition val32 (l : list N) : N := fold_left (fun a d => a * 32 + d) l 0.
Definition five (l : list N) : Prop := Forall (fun d => d < 32) l.

Lemma groups5_length : forall n b, length (groups5 n b) = n.
Proof. induction n; intros; simpl; auto. rewrite app_length, IHn. simpl. lia. Qed.
Lemma groups5_five : forall n b, five (groups5 n b).
Proof.
  induction n; intros; simpl; [constructor|]. apply Forall_app. split; [apply IHn|]. repeat constructor.
  rewrite land_31. now apply N.mod_lt.
Qed.
Lemma val32_snoc : forall l d, val32 (l ++ [d]) = val32 l * 32 + d.
Proof. intros. unfold val32. rewrite fold_left_app. reflexivity. Qed.
Lemma groups5_val : forall n b, val32 (groups5 n b) = b mod 32 ^ N.of_nat n.
Proof.
  induction n; intros; [simpl; now rewrite N.mod_1_r|]. cbn [groups5].
  rewrite val32_snoc, IHn, land_31, N.shiftr_div_pow2. change (2 ^ 5) with 32.
  rewrite Nat2N.inj_succ, N.pow_succ_r', N.mod_mul_r by (try discriminate; now apply N.pow_nonzero). lia.
Qed.
Lemma val32_bound : forall l, five l -> val32 l < 32 ^ N.of_nat (length l).
Proof.
  induction l as [|d l IH] using rev_ind; intros F; [reflexivity|].
  apply Forall_app in F. destruct F as [F1 F2]. inversion F2; subst.
  rewrite val32_snoc, app_length. cbn [length]. rewrite Nat.add_1_r, Nat2N.inj_succ, N.pow_succ_r'.
  specialize (IH F1). lia.
Qed.

Lemma firstn_snoc : forall (l : list N) n, (n < length l)%nat -> firstn (S n) l = firstn n l ++ [nth n l 0].
Proof.
  induction l as [|x l IH]; intros [|n] H; simpl in *; try lia; auto. f_equal. apply (IH n). lia.
Qed.

Lemma five_firstn : forall l n, five l -> five (firstn n l).
Proof. intros l n F. revert n. induction F; intros [|n]; simpl; constructor; auto. apply IHF. Qed.
Lemma five_nth : forall l n, five l -> nth n l 0 < 32.
Proof.
  intros l n F. destruct (nth_in_or_default n l 0) as [H| ->]; [|lia]. unfold five in F. rewrite Forall_forall in F. auto.
Qed.

Lemma acc_groups : forall dp n, five dp -> (n <= length dp)%nat -> (n <= 50)%nat ->
  fold_left (fun b i => N.shiftl (N.lor b (N.land (nth i dp 0) 31)) 5 mod 2 ^ 256) (seq 0 n) 0 = val32 (firstn n dp) * 32.
Proof.
  intros dp n F. induction n as [|n IH]; intros HL HB; [reflexivity|].
  rewrite seq_S, fold_left_app, IH by lia. cbn [fold_left Nat.add].
  rewrite firstn_snoc, val32_snoc by lia. set (v := val32 (firstn n dp)).
  pose proof (five_nth dp n F) as Hd. rewrite land_31, (N.mod_small (nth n dp 0)) by auto.
  rewrite (lor_small_add _ _ 5) by (auto; change (2 ^ 5) with 32; apply N.mod_mul; discriminate).
  rewrite N.shiftl_mul_pow2. change (2 ^ 5) with 32. apply N.mod_small.
  assert (v < 32 ^ N.of_nat n).
  { unfold v. pose proof (val32_bound (firstn n dp) (five_firstn _ _ F)) as B.
    rewrite firstn_length, Nat.min_l in B by lia. exact B. }
  assert (32 ^ N.of_nat n <= 32 ^ 49) by (apply N.pow_le_mono_r; [discriminate|lia]).
  assert (v < 32 ^ 49) by (eapply N.lt_le_trans; eauto).
  change (32 ^ 49) with (2 ^ 245) in *. change (2 ^ 256) with (2 ^ 245 * 2048). 
  set (P := 2 ^ 245) in *. clearbody P v. nia.
Qed.

Lemma addr_of_groups_val : forall dp, five dp -> length dp = 52%nat ->
  addr_of_groups dp = le_bytes 32 (val32 (firstn 51 dp) * 2 + nth 51 dp 0 / 16).
Proof.
  intros dp F HL. unfold addr_of_groups. f_equal. rewrite acc_groups by (auto; lia).
  pose proof (five_nth dp 50 F) as H50. pose proof (five_nth dp 51 F) as H51.
  rewrite (firstn_snoc dp 50), val32_snoc by lia.
  rewrite land_31, (N.mod_small (nth 50 dp 0)) by auto.
  rewrite (lor_small_add (_ * 32) _ 5) by (auto; change (2 ^ 5) with 32; apply N.mod_mul; discriminate).
  rewrite N.shiftr_div_pow2, land_1. change (2 ^ 4) with 16.
  rewrite (N.mod_small (nth 51 dp 0 / 16)) by (apply N.div_lt_upper_bound; [discriminate|lia]).
  assert (B : val32 (firstn 50 dp) < 2 ^ 250).
  { pose proof (val32_bound (firstn 50 dp) (five_firstn _ _ F)) as B. rewrite firstn_length, HL in B. exact B. }
  rewrite N.mod_small.
  - rewrite lor_shiftl_add by (apply N.div_lt_upper_bound; [discriminate|exact H51]). reflexivity.
  - rewrite N.shiftl_mul_pow2. change (2 ^ 256) with (2 ^ 250 * 64). set (P := 2 ^ 250) in *. clearbody P. change (2 ^ 1) with 2. lia.
Qed.

Lemma addr_groups_ok : forall a, five (addr_groups a) /\ length (addr_groups a) = 52%nat.
Proof.
  intros a. unfold addr_groups. split.
  - apply Forall_app. split; [apply groups5_five|]. constructor; [|constructor].
    rewrite land_1, N.shiftl_mul_pow2. pose proof (N.mod_lt (of_le a) 2 ltac:(discriminate)). change (2 ^ 4) with 16. lia.
  - now rewrite app_length, groups5_length.
Qed.

Lemma addr_groups_round : forall a, length a = 32%nat -> bytes_ok a -> addr_of_groups (addr_groups a) = a.
Proof.
  intros a HL HB. destruct (addr_groups_ok a) as [F L]. rewrite addr_of_groups_val by auto.
  unfold addr_groups. set (b := of_le a). rewrite firstn_app, groups5_length, Nat.sub_diag.
  rewrite <- (groups5_length 51 (N.shiftr b 1)) at 1. rewrite firstn_all. change (firstn 0 [N.shiftl (N.land b 1) 4]) with (@nil N). rewrite app_nil_r, groups5_val.
  rewrite app_nth2 by (rewrite groups5_length; lia). rewrite groups5_length, Nat.sub_diag.
  change (nth 0 [N.shiftl (N.land b 1) 4] 0) with (N.shiftl (N.land b 1) 4).
  rewrite N.shiftl_mul_pow2, N.div_mul by discriminate. rewrite land_1, N.shiftr_div_pow2. change (2 ^ 1) with 2.
  assert (b < 2 ^ 256) by (unfold b; pose proof (of_le_bound a HB) as B; rewrite HL in B; exact B).
  rewrite (N.mod_small (b / 2)) by (change (32 ^ N.of_nat 51) with (2 ^ 255); apply N.div_lt_upper_bound; [discriminate|exact H]).
  rewrite N.mul_comm, <- N.div_mod by discriminate. unfold b. rewrite <- HL. now apply le_of_le.
Qed.

(** *** the bech32 checksum is linear *)
Lemma b32_gen_linear : forall a b, b32_gen (N.lxor a b) = N.lxor (b32_gen a) (b32_gen b).
Proof.
  assert (K : forall x y v, (if xorb x y then v else 0) = N.lxor (if x then v else 0) (if y then v else 0)).
  { intros [] [] v; simpl; rewrite ?N.lxor_nilpotent, ?N.lxor_0_r; auto. }
  intros a b. unfold b32_gen. rewrite !N.lxor_spec, !K.
  generalize (if N.testbit a 0 then 0x3b6a57b2 else 0) (if N.testbit b 0 then 0x3b6a57b2 else 0)
    (if N.testbit a 1 then 0x26508e6d else 0) (if N.testbit b 1 then 0x26508e6d else 0)
    (if N.testbit a 2 then 0x1ea119fa else 0) (if N.testbit b 2 then 0x1ea119fa else 0)
    (if N.testbit a 3 then 0x3d4233dd else 0) (if N.testbit b 3 then 0x3d4233dd else 0)
    (if N.testbit a 4 then 0x2a1462b3 else 0) (if N.testbit b 4 then 0x2a1462b3 else 0).
  intros. apply N.bits_inj. intros i. rewrite !N.lxor_spec. btauto.
Qed.

Lemma b32_step_linear : forall a b u v, b32_step (N.lxor a b) (N.lxor u v) = N.lxor (b32_step a u) (b32_step b v).
Proof.
  intros. unfold b32_step. rewrite N.shiftr_lxor, b32_gen_linear.
  assert (E : N.shiftl (N.land (N.lxor a b) 33554431) 5 = N.lxor (N.shiftl (N.land a 33554431) 5) (N.shiftl (N.land b 33554431) 5)).
  { rewrite <- N.shiftl_lxor. f_equal. apply N.bits_inj. intros i. rewrite ?N.land_spec, ?N.lxor_spec, ?N.land_spec. btauto. }
  rewrite E. apply N.bits_inj. intros i. rewrite !N.lxor_spec. btauto.
Qed.

Lemma b32_fold_linear : forall us vs a b, length us = length vs ->
  fold_left b32_step (map (fun p => N.lxor (fst p) (snd p)) (combine us vs)) (N.lxor a b)
  = N.lxor (fold_left b32_step us a) (fold_left b32_step vs b).
Proof.
  induction us as [|u us IH]; intros [|v vs] a b H; try discriminate; [reflexivity|].
  cbn [combine map fold_left fst snd]. rewrite b32_step_linear. apply IH. simpl in H. lia.
Qed.

Lemma b32_step_small : forall c v, c < 2 ^ 25 -> v < 32 -> b32_step c v = c * 32 + v.
Proof.
  intros c v Hc Hv. unfold b32_step. change 33554431 with (2 ^ 25 - 1). rewrite land_mask, N.mod_small by auto.
  rewrite N.shiftr_div_pow2, N.div_small by auto. change (b32_gen 0) with 0. rewrite N.lxor_0_r.
  change 32 with (2 ^ 5). rewrite <- lor_shiftl_add by auto.
  apply N.bits_inj. intros i. rewrite N.lxor_spec, N.lor_spec. destruct (N.lt_ge_cases i 5) as [L|L].
  - rewrite N.shiftl_spec_low by auto. now destruct (N.testbit v i).
  - rewrite (testbit_high v 5 i Hv L). now rewrite xorb_false_r, orb_false_r.
Qed.

Lemma b32_gen_lt : forall b, b32_gen b < 2 ^ 30.
Proof.
  intros b. unfold b32_gen. repeat apply lxor_lt_pow2; destruct (N.testbit _ _); reflexivity.
Qed.
Lemma b32_step_lt : forall c v, v < 2 ^ 30 -> b32_step c v < 2 ^ 30.
Proof.
  intros c v Hv. unfold b32_step. apply lxor_lt_pow2; [|apply b32_gen_lt]. apply lxor_lt_pow2; auto.
  change 33554431 with (2 ^ 25 - 1). rewrite land_mask, N.shiftl_mul_pow2.
  pose proof (N.mod_lt c (2 ^ 25) ltac:(discriminate)) as H. change (2 ^ 30) with (2 ^ 25 * 32). change (2 ^ 5) with 32.
  apply N.mul_lt_mono_pos_r; [reflexivity|exact H].
Qed.

Lemma b32_append : forall c l, five l -> length l = 6%nat ->
  fold_left b32_step l c = N.lxor (fold_left b32_step (repeat 0 6) c) (val32 l).
Proof.
  intros c l F HL.
  assert (E : map (fun p => N.lxor (fst p) (snd p)) (combine (repeat 0 6) l) = l).
  { destruct l as [|x1 [|x2 [|x3 [|x4 [|x5 [|x6 [|? ?]]]]]]]; try discriminate. reflexivity. }
  rewrite <- E at 1. rewrite <- (N.lxor_0_r c) at 1. rewrite b32_fold_linear by (rewrite HL; reflexivity). f_equal.
  destruct l as [|x1 [|x2 [|x3 [|x4 [|x5 [|x6 [|? ?]]]]]]]; try discriminate.
  unfold val32. cbn [fold_left]. repeat match goal with H : five (_ :: _) |- _ => inversion H; clear H; subst
    | H : Forall _ (_ :: _) |- _ => inversion H; clear H; subst end.
  change (2 ^ 25) with 33554432 in *.
  rewrite (b32_step_small 0 x1) by lia.
  rewrite (b32_step_small _ x2) by (change (2 ^ 25) with 33554432; lia).
  rewrite (b32_step_small _ x3) by (change (2 ^ 25) with 33554432; lia).
  rewrite (b32_step_small _ x4) by (change (2 ^ 25) with 33554432; lia).
  rewrite (b32_step_small _ x5) by (change (2 ^ 25) with 33554432; lia).
  rewrite (b32_step_small _ x6) by (change (2 ^ 25) with 33554432; lia). reflexivity.
Qed.

Lemma six_groups : forall pm, pm < 2 ^ 30 ->
  let l := map (fun i => N.land (N.shiftr pm (5 * (5 - i))) 31) [0; 1; 2; 3; 4; 5] in
  five l /\ length l = 6%nat /\ val32 l = pm.
Proof.
  intros pm H l. assert (E : l = groups5 6 pm).
  { unfold l. cbn [map groups5 app]. change (5 * (5 - 0)) with 25. change (5 * (5 - 1)) with 20. change (5 * (5 - 2)) with 15.
    change (5 * (5 - 3)) with 10. change (5 * (5 - 4)) with 5. change (5 * (5 - 5)) with 0.
    rewrite !N.shiftr_shiftr. simpl N.add. rewrite N.shiftr_0_r. reflexivity. }
  rewrite E. split; [apply groups5_five|]. split; [apply groups5_length|]. rewrite groups5_val. now apply N.mod_small.
Qed.

Lemma polymod_lt : forall l c, five l -> c < 2 ^ 30 -> fold_left b32_step l c < 2 ^ 30.
Proof.
  intros l. induction l as [|v l IH]; intros c F H; [exact H|]. inversion F; subst. cbn [fold_left]. apply IH; auto.
  apply b32_step_lt. change (2 ^ 30) with 1073741824. lia.
Qed.

Lemma checksum_valid : forall hrp dp, five (b32_expand hrp) -> five dp ->
  five (b32_checksum hrp dp) /\ length (b32_checksum hrp dp) = 6%nat /\
  b32_polymod (b32_expand hrp ++ dp ++ b32_checksum hrp dp) = b32m_const.
Proof.
  intros hrp dp Fh Fd. unfold b32_checksum. set (pm := N.lxor _ b32m_const).
  assert (Hpm : pm < 2 ^ 30).
  { unfold pm. apply lxor_lt_pow2; [|reflexivity]. apply polymod_lt; [|reflexivity].
    apply Forall_app. split; auto. apply Forall_app. split; auto. repeat constructor. }
  destruct (six_groups pm Hpm) as (F6 & L6 & V6). cbv zeta in F6, L6, V6. split; [exact F6|]. split; [exact L6|].
  unfold b32_polymod. rewrite app_assoc, fold_left_app, b32_append by auto. rewrite V6.
  unfold pm, b32_polymod. rewrite (app_assoc (b32_expand hrp) dp (repeat 0 6)), (fold_left_app b32_step (b32_expand hrp ++ dp) (repeat 0 6) 1), <- N.lxor_assoc, N.lxor_nilpotent. reflexivity.
Qed.

(** *** the character set *)
Lemma all32 : forall P : N -> Prop, Forall P (map N.of_nat (seq 0 32)) -> forall v, v < 32 -> P v.
Proof.
  intros P F v H. rewrite Forall_forall in F. apply F. apply in_map_iff. exists (N.to_nat v). split; [lia|]. apply in_seq. lia.
Qed.
Lemma char_facts : forall v, v < 32 -> let c := b32_char v in
  char_index c b32_charset 0 = Some v /\ lower c = c /\ is_upper c = false /\ (33 <=? c) && (c <=? 126) = true /\ (c =? 49) = false.
Proof. apply all32. repeat constructor. Qed.

Lemma chars_split : forall l, Forall (fun c => (c =? 49) = false) l -> split_last1 l = None.
Proof. induction 1; simpl; auto. rewrite IHForall, H. reflexivity. Qed.

Lemma map_opt_chars : forall vs, five vs -> map_opt (fun c => char_index c b32_charset 0) (map b32_char vs) = Some vs.
Proof.
  induction 1 as [|v vs Hv F IH]; [reflexivity|]. cbn [map map_opt]. destruct (char_facts v Hv) as (E & _). rewrite E, IH. reflexivity.
Qed.

Lemma decode_encode : forall dp, five dp -> (length dp <= 80)%nat -> b32m_decode (b32_encode [109; 109; 120] dp) = Some dp.
Proof.
  intros dp F HL. destruct (checksum_valid [109; 109; 120] dp) as (FC & LC & PC); [repeat constructor|exact F|].
  unfold b32_encode. set (vs := dp ++ b32_checksum [109; 109; 120] dp) in *.
  assert (FV : five vs) by (apply Forall_app; auto).
  assert (LV : length vs = (length dp + 6)%nat) by (unfold vs; rewrite app_length; lia).
  assert (CF : Forall (fun c => (c =? 49) = false) (map b32_char vs)).
  { apply Forall_map. unfold five in FV. eapply Forall_impl; [|exact FV]. intros v Hv. now apply char_facts. }
  assert (LW : map lower (map b32_char vs) = map b32_char vs).
  { rewrite map_map. apply map_ext_in. intros v Hv. unfold five in FV. rewrite Forall_forall in FV. now apply char_facts, FV. }
  unfold b32m_decode. set (s := [109; 109; 120] ++ [49] ++ map b32_char vs).
  assert (LS : length s = (4 + length vs)%nat) by (unfold s; simpl; now rewrite map_length).
  rewrite LS, LV. replace (90 <? 4 + (length dp + 6))%nat with false by (symmetry; apply Nat.ltb_ge; lia).
  replace (4 + (length dp + 6) <? 8)%nat with false by (symmetry; apply Nat.ltb_ge; lia). cbn [orb].
  assert (R : forallb (fun c => (33 <=? c) && (c <=? 126)) s = true).
  { unfold s. cbn [app forallb]. change ((33 <=? 109) && (109 <=? 126)) with true. change ((33 <=? 120) && (120 <=? 126)) with true.
    change ((33 <=? 49) && (49 <=? 126)) with true. cbn [andb]. apply forallb_forall. intros c Hc. apply in_map_iff in Hc.
    destruct Hc as (v & <- & Hv). unfold five in FV. rewrite Forall_forall in FV. now apply char_facts, FV. }
  rewrite R. cbn [negb].
  assert (U : existsb is_upper s = false).
  { unfold s. cbn [app existsb]. change (is_upper 109) with false. change (is_upper 120) with false. change (is_upper 49) with false. cbn [orb].
    destruct (existsb is_upper (map b32_char vs)) eqn:E; [|reflexivity]. apply existsb_exists in E. destruct E as (c & Hc & Hu).
    apply in_map_iff in Hc. destruct Hc as (v & <- & Hv). unfold five in FV. rewrite Forall_forall in FV.
    destruct (char_facts v (FV v Hv)) as (_ & _ & E & _). congruence. }
  rewrite U. cbn [andb].
  assert (SP : split_last1 (map lower s) = Some ([109; 109; 120], map b32_char vs)).
  { unfold s. cbn [app map]. change (lower 109) with 109. change (lower 120) with 120. change (lower 49) with 49.
    rewrite LW. cbn [split_last1]. rewrite (chars_split _ CF). reflexivity. }
  rewrite SP. cbn [length Nat.eqb orb]. rewrite map_length, LV.
  replace (length dp + 6 <? 6)%nat with false by (symmetry; apply Nat.ltb_ge; lia).
  rewrite map_opt_chars by auto. rewrite PC, N.eqb_refl. f_equal. rewrite LV, Nat.add_sub.
  unfold vs. rewrite firstn_app, firstn_all, Nat.sub_diag. cbn [firstn]. apply app_nil_r.
Qed.

Lemma addr_round_trip : forall a, length a = 32%nat -> bytes_ok a -> addr_from_string (addr_to_string a) = Some a.
Proof.
  intros a HL HB. unfold addr_from_string, addr_to_string. destruct (addr_groups_ok a) as [F L].
  destruct (list_eq_dec N.eq_dec _ _) as [E|E].
  - exfalso. unfold b32_encode in E. apply (f_equal (@length N)) in E. cbn [app length] in E. lia.
  - rewrite decode_encode by (auto; lia). rewrite L. cbn [Nat.eqb negb]. now rewrite addr_groups_round.
Qed.
