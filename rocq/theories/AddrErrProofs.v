(** The Bech32m checksum finds mistakes in an address. *)
Require Import List Arith NArith Bool Lia FMapPositive Btauto.
Require Import Verif.CodecModel Verif.AddrProofs.
Import ListNotations.
Open Scope N_scope.

(** *** the checksum is a linear map with a trivial kernel *)
Definition sh (c : N) : N := b32_step c 0.
Definition pw (i : nat) (a : N) : N := Nat.iter i sh a.
Definition xsum (l : list N) : N := fold_right N.lxor 0 l.
Definition nz (l : list N) : nat := length (filter (fun x => negb (x =? 0)) l).

Lemma step_sh c v : b32_step c v = N.lxor (sh c) v.
Proof.
  rewrite <- (N.lxor_0_r c) at 1. rewrite <- (N.lxor_0_l v) at 1. rewrite b32_step_linear. unfold sh. f_equal.
  change (b32_step 0 v) with (N.lxor (N.lxor 0 v) 0). rewrite N.lxor_0_r. apply N.lxor_0_l.
Qed.
Lemma sh_linear a b : sh (N.lxor a b) = N.lxor (sh a) (sh b).
Proof. unfold sh. rewrite <- b32_step_linear. reflexivity. Qed.
Lemma sh_0 : sh 0 = 0. Proof. reflexivity. Qed.
Lemma sh_lt c : sh c < 2 ^ 30. Proof. apply b32_step_lt. reflexivity. Qed.
Lemma gen_low : forall v, v < 32 -> N.land (b32_gen v) 31 = 0 -> v = 0.
Proof. apply (all32 (fun v => N.land (b32_gen v) 31 = 0 -> v = 0)). repeat constructor; intros H; try reflexivity; vm_compute in H; discriminate. Qed.
Lemma sh_inj c : c < 2 ^ 30 -> sh c = 0 -> c = 0.
Proof.
  intros L H.
  assert (V : N.shiftr c 25 < 32) by (rewrite N.shiftr_div_pow2; apply N.div_lt_upper_bound; [discriminate|exact L]).
  assert (Z : N.shiftr c 25 = 0).
  { apply gen_low; [exact V|]. unfold sh, b32_step in H. rewrite N.lxor_0_r in H. apply N.lxor_eq in H. rewrite <- H. change 31 with (N.ones 5). rewrite N.land_ones, N.shiftl_mul_pow2. apply N.mod_mul. discriminate. }
  assert (C : c < 2 ^ 25) by (rewrite N.shiftr_div_pow2 in Z; apply N.div_small_iff in Z; [exact Z|discriminate]).
  unfold sh in H. rewrite b32_step_small in H; [lia|exact C|reflexivity].
Qed.
Lemma pw_sh i a : sh (pw i a) = pw (S i) a. Proof. reflexivity. Qed.
Lemma pw_swap i a : pw i (sh a) = pw (S i) a.
Proof. induction i as [|i IH]; [reflexivity|]. rewrite <- pw_sh, IH. reflexivity. Qed.
Lemma pw_linear i a b : pw i (N.lxor a b) = N.lxor (pw i a) (pw i b).
Proof. induction i as [|i IH]; [reflexivity|]. rewrite <- !pw_sh, IH, sh_linear. reflexivity. Qed.
Lemma pw_0 i : pw i 0 = 0. Proof. induction i as [|i IH]; [reflexivity|]. rewrite <- pw_sh, IH. reflexivity. Qed.

(** *** the value of a list that starts from its end *)
Fixpoint syn (r : list N) : N := match r with [] => 0 | v :: r' => N.lxor (sh (syn r')) v end.
Lemma syn_fold r : fold_left b32_step (rev r) 0 = syn r.
Proof. induction r as [|v r IH]; [reflexivity|]. cbn [rev syn]. rewrite fold_left_app. cbn [fold_left]. rewrite IH. apply step_sh. Qed.
Lemma syn_lt r : five r -> syn r < 2 ^ 30.
Proof.
  induction 1 as [|v r Hv F IH]; [reflexivity|]. cbn [syn]. rewrite <- step_sh. apply b32_step_lt. change (2 ^ 30) with 1073741824. lia.
Qed.
Lemma nz_cons v r : nz (v :: r) = ((if (v =? 0)%N then 0 else 1) + nz r)%nat.
Proof. unfold nz. cbn [filter]. destruct (v =? 0); reflexivity. Qed.
Lemma nz_zero r : nz r = 0%nat -> syn r = 0.
Proof. induction r as [|v r IH]; [reflexivity|]. rewrite nz_cons. destruct (v =? 0) eqn:E; [|lia]. intros H. cbn [syn]. rewrite (IH H). apply N.eqb_eq in E. subst. reflexivity. Qed.

Lemma syn1 r : five r -> (nz r <= 1)%nat -> r <> [] -> exists i a, (i < length r)%nat /\ a < 32 /\ syn r = pw i a.
Proof.
  induction 1 as [|v r Hv F IH]; intros Z NE; [congruence|]. rewrite nz_cons in Z. cbn [syn length]. destruct (v =? 0) eqn:E.
  - apply N.eqb_eq in E. subst v. destruct r as [|w r]; [exists 0%nat, 0; repeat split; lia|]. destruct IH as (i & a & I & A & ->); [lia|discriminate|].
    exists (S i), a. rewrite N.lxor_0_r. repeat split; [lia|exact A].
  - exists 0%nat, v. rewrite nz_zero by lia. repeat split; [lia|exact Hv].
Qed.
Lemma syn2 r : five r -> (nz r <= 2)%nat -> r <> [] ->
  exists i a j b, (i < length r)%nat /\ (j < length r)%nat /\ a < 32 /\ b < 32 /\ syn r = N.lxor (pw i a) (pw j b).
Proof.
  induction 1 as [|v r Hv F IH]; intros Z NE; [congruence|]. rewrite nz_cons in Z. cbn [syn length].
  destruct r as [|w r]; [exists 0%nat, v, 0%nat, 0; repeat split; try lia; rewrite N.lxor_0_r; reflexivity|]. destruct (v =? 0) eqn:E.
  - apply N.eqb_eq in E. subst v. destruct IH as (i & a & j & b & I & J & A & B & ->); [lia|discriminate|].
    exists (S i), a, (S j), b. rewrite N.lxor_0_r, sh_linear. repeat split; auto; lia.
  - destruct (syn1 (w :: r) F) as (i & a & I & A & ->); [lia|discriminate|]. exists (S i), a, 0%nat, v. repeat split; auto; lia.
Qed.
Lemma syn3 r : five r -> (nz r <= 3)%nat -> r <> [] ->
  exists i a j b k c, (i < length r)%nat /\ (j < length r)%nat /\ (k < length r)%nat /\ a < 32 /\ b < 32 /\ c < 32 /\ syn r = N.lxor (pw i a) (N.lxor (pw j b) (pw k c)).
Proof.
  induction 1 as [|v r Hv F IH]; intros Z NE; [congruence|]. rewrite nz_cons in Z. cbn [syn length].
  destruct r as [|w r]; [exists 0%nat, v, 0%nat, 0, 0%nat, 0; repeat split; try lia; rewrite !N.lxor_0_r; reflexivity|]. destruct (v =? 0) eqn:E.
  - apply N.eqb_eq in E. subst v. destruct IH as (i & a & j & b & k & c & I & J & K & A & B & C & ->); [lia|discriminate|].
    exists (S i), a, (S j), b, (S k), c. rewrite N.lxor_0_r, !sh_linear. repeat split; auto; lia.
  - destruct (syn2 (w :: r) F) as (i & a & j & b & I & J & A & B & ->); [lia|discriminate|]. exists (S i), a, (S j), b, 0%nat, v.
    rewrite sh_linear, !pw_sh, N.lxor_assoc. repeat split; auto; lia.
Qed.

(** *** sets of checksums *)
Definition set := PositiveMap.t unit.
Definition put1 (s : set) (x : N) : set := PositiveMap.add (N.succ_pos x) tt s.
Definition has (s : set) (x : N) : bool := match PositiveMap.find (N.succ_pos x) s with Some _ => true | None => false end.
Lemma has_same s x : has (put1 s x) x = true.
Proof. unfold has, put1. rewrite PositiveMap.gss. reflexivity. Qed.
Lemma has_more s x y : has s x = true -> has (put1 s y) x = true.
Proof.
  unfold has, put1. destruct (Pos.eq_dec (N.succ_pos x) (N.succ_pos y)) as [E|E].
  - rewrite E, PositiveMap.gss. reflexivity.
  - rewrite PositiveMap.gso by exact E. auto.
Qed.
Lemma has_fold l : forall s x, has s x = true \/ In x l -> has (fold_left put1 l s) x = true.
Proof.
  induction l as [|y l IH]; intros s x H; cbn [fold_left].
  - destruct H as [H|[]]. exact H.
  - apply IH. destruct H as [H|[->|H]]; [left; apply has_more; exact H|left; apply has_same|auto].
Qed.

(** *** up to four wrong characters in the data *)
Definition v32 : list N := map N.of_nat (seq 0 32).
Definition v31 : list N := map N.of_nat (seq 1 31).
Definition rows : list (list N) := map (fun i => map (pw i) v32) (seq 1 57).
Definition near : set := fold_left put1 (flat_map (fun v => flat_map (map (N.lxor v)) rows) v31) (PositiveMap.empty unit).
Fixpoint chk (m : set) (l : list (list N)) : bool :=
  match l with
  | [] => true
  | r :: l' => forallb (fun x => forallb (forallb (fun y => negb (has m (N.lxor x y)))) l) r && chk m l'
  end.
Lemma chk_near : chk near rows = true.
Proof. vm_cast_no_check (@eq_refl bool true). Qed.
Lemma chk_spec m l : chk m l = true -> forall i j, (i <= j)%nat -> forall r1 r2 x y, nth_error l i = Some r1 -> nth_error l j = Some r2 -> In x r1 -> In y r2 -> has m (N.lxor x y) = false.
Proof.
  induction l as [|r l IH]; intros H i j IJ r1 r2 x y N1 N2 X Y; [destruct i; discriminate|]. cbn [chk] in H. apply andb_true_iff in H as [H1 H2]. destruct i as [|i].
  - cbn in N1. inversion N1; subst. rewrite forallb_forall in H1. specialize (H1 x X). rewrite forallb_forall in H1.
    specialize (H1 r2 (nth_error_In _ _ N2)). rewrite forallb_forall in H1. specialize (H1 y Y). apply negb_true_iff in H1. exact H1.
  - destruct j as [|j]; [lia|]. cbn in N1, N2. apply (IH H2 i j) with r1 r2; auto. lia.
Qed.
Lemma in_v32 a : a < 32 -> In a v32.
Proof. intros H. apply in_map_iff. exists (N.to_nat a). split; [lia|]. apply in_seq. lia. Qed.
Lemma in_v31 a : a < 32 -> a <> 0 -> In a v31.
Proof. intros H H0. apply in_map_iff. exists (N.to_nat a). split; [lia|]. apply in_seq. lia. Qed.
Lemma rows_nth i a : (i < 57)%nat -> a < 32 -> exists r, nth_error rows i = Some r /\ In (pw (S i) a) r.
Proof.
  intros I A. exists (map (pw (S i)) v32). split.
  - unfold rows. erewrite map_nth_error; [reflexivity|]. rewrite (nth_error_nth' _ 0%nat) by (rewrite seq_length; exact I). rewrite seq_nth by exact I. reflexivity.
  - apply in_map, in_v32, A.
Qed.
Lemma near_has v i a : v < 32 -> v <> 0 -> (i < 57)%nat -> a < 32 -> has near (N.lxor v (pw (S i) a)) = true.
Proof.
  intros V V0 I A. unfold near. apply has_fold. right. apply in_flat_map. exists v. split; [apply in_v31; auto|]. apply in_flat_map.
  destruct (rows_nth i a I A) as (r & R1 & R2). exists r. split; [eapply nth_error_In; exact R1|]. apply in_map. exact R2.
Qed.
Lemma two_far j b k c : (j < 57)%nat -> (k < 57)%nat -> b < 32 -> c < 32 -> has near (N.lxor (pw (S j) b) (pw (S k) c)) = false.
Proof.
  intros J K B C. destruct (rows_nth j b J B) as (r1 & R1 & X1). destruct (rows_nth k c K C) as (r2 & R2 & X2).
  destruct (le_lt_dec j k) as [L|L].
  - eapply (chk_spec near rows chk_near j k); eauto.
  - rewrite N.lxor_comm. eapply (chk_spec near rows chk_near k j); eauto. lia.
Qed.
Lemma syn4 r : five r -> (length r <= 58)%nat -> (nz r <= 4)%nat -> syn r = 0 -> nz r = 0%nat.
Proof.
  induction 1 as [|v r Hv F IH]; intros L Z S; [reflexivity|]. rewrite nz_cons in Z |- *. cbn [syn length] in S, L. destruct (v =? 0) eqn:E.
  - apply N.eqb_eq in E. subst v. rewrite N.lxor_0_r in S. apply sh_inj in S; [|apply syn_lt; exact F]. rewrite IH; auto; lia.
  - exfalso. apply N.eqb_neq in E. destruct r as [|w r].
    { cbn [syn] in S. rewrite sh_0, N.lxor_0_l in S. contradiction. }
    destruct (syn3 (w :: r) F) as (i & a & j & b & k & c & I & J & K & A & B & C & X); [lia|discriminate|]. rewrite X, !sh_linear, !pw_sh in S.
    assert (Y : N.lxor v (pw (Datatypes.S i) a) = N.lxor (pw (Datatypes.S j) b) (pw (Datatypes.S k) c)).
    { apply N.lxor_eq. rewrite <- S. generalize (pw (Datatypes.S i) a) (pw (Datatypes.S j) b) (pw (Datatypes.S k) c). intros; apply N.bits_inj; intros bit; rewrite !N.lxor_spec. btauto. }
    pose proof (near_has v i a Hv E ltac:(lia) A) as T. rewrite Y, two_far in T by (auto; lia). discriminate.
Qed.

(** *** up to three wrong characters anywhere: what a character contributes *)
Fixpoint weigh (l : list N) : list N := match l with [] => [] | v :: l' => pw (length l') v :: weigh l' end.
Lemma fold_weigh l c : fold_left b32_step l c = N.lxor (pw (length l) c) (xsum (weigh l)).
Proof.
  revert c. induction l as [|v l IH]; intros c; [cbn; symmetry; apply N.lxor_0_r|]. cbn [fold_left weigh xsum fold_right length]. rewrite IH, step_sh, pw_linear.
  rewrite N.lxor_assoc. f_equal. apply pw_swap.
Qed.
Lemma weigh_length l : length (weigh l) = length l.
Proof. induction l; cbn; auto. Qed.
Definition parts (h1 h2 h3 l1 l2 l3 : N) (ds : list N) : list N :=
  N.lxor (pw 64 h1) (pw 60 l1) :: N.lxor (pw 63 h2) (pw 59 l2) :: N.lxor (pw 62 h3) (pw 58 l3) :: weigh ds.
Lemma fold_parts h1 h2 h3 l1 l2 l3 ds : length ds = 58%nat -> fold_left b32_step ([h1; h2; h3; 0; l1; l2; l3] ++ ds) 0 = xsum (parts h1 h2 h3 l1 l2 l3 ds).
Proof.
  intros L. rewrite fold_weigh, pw_0, N.lxor_0_l. cbn [app weigh length]. rewrite L. unfold parts. cbn [xsum fold_right]. rewrite pw_0.
  generalize (pw 64 h1) (pw 60 l1) (pw 63 h2) (pw 59 l2) (pw 62 h3) (pw 58 l3) (fold_right N.lxor 0 (weigh ds)). intros; apply N.bits_inj; intros bit; rewrite !N.lxor_spec, N.bits_0. btauto.
Qed.
Definition hrow (i : nat) : list N := filter (fun x => negb (x =? 0)) (flat_map (fun h => map (fun l => N.lxor (pw (4 + i) h) (pw i l)) v32) [0; 1; 2; 3]).
Definition cols : list (list N) := [hrow 60; hrow 59; hrow 58] ++ map (fun i => map (pw i) v31) (rev (seq 0 58)).
Definition mk_ones (l : list N) : set := fold_left put1 (0 :: l) (PositiveMap.empty unit).
Definition ones : set := mk_ones (concat cols).
Fixpoint chk2 (m : set) (l : list (list N)) : bool :=
  match l with
  | [] => true
  | r :: l' => forallb (fun x => forallb (forallb (fun y => negb (has m (N.lxor x y)))) l') r && chk2 m l'
  end.
Lemma chk_ones : chk2 ones cols = true.
Proof. vm_cast_no_check (@eq_refl bool true). Qed.
Definition fits (v : N) (row : list N) : Prop := v = 0 \/ In v row.
Lemma one_left l vs : Forall2 fits vs l -> (nz vs <= 1)%nat -> xsum vs = 0 \/ In (xsum vs) (concat l).
Proof.
  induction 1 as [|v row vs l H F IH]; intros Z; [auto|]. rewrite nz_cons in Z. cbn [xsum fold_right concat]. fold (xsum vs). destruct (v =? 0) eqn:E.
  - apply N.eqb_eq in E. subst. rewrite N.lxor_0_l. destruct IH as [->|IH]; [lia|auto|]. right. apply in_or_app. auto.
  - assert (X : xsum vs = 0).
    { assert (NZ : nz vs = 0%nat) by lia. clear -NZ. induction vs as [|w vs IH]; [reflexivity|]. rewrite nz_cons in NZ. destruct (w =? 0) eqn:E; [|lia]. apply N.eqb_eq in E. subst. cbn. apply IH. lia. }
    rewrite X, N.lxor_0_r. apply N.eqb_neq in E. destruct H as [H|H]; [contradiction|]. right. apply in_or_app. auto.
Qed.
Lemma two_left m l vs x : Forall2 fits vs l -> (nz vs <= 2)%nat -> (forall v, v = 0 \/ In v (concat l) -> has m v = true) -> x <> 0 ->
  forallb (forallb (fun y => negb (has m (N.lxor x y)))) l = true -> xsum vs <> x.
Proof.
  intros H. revert x. induction H as [|v row vs l H F IH]; intros x Z M X C E; [cbn in E; congruence|]. rewrite nz_cons in Z. cbn [forallb] in C. apply andb_true_iff in C as [C1 C2].
  cbn [xsum fold_right] in E. fold (xsum vs) in E. destruct (v =? 0) eqn:V.
  - apply N.eqb_eq in V. subst v. rewrite N.lxor_0_l in E. eapply (IH x); eauto. intros w [W|W]; apply M; auto. right. cbn. apply in_or_app. auto.
  - apply N.eqb_neq in V. destruct H as [H|H]; [contradiction|]. rewrite forallb_forall in C1. specialize (C1 v H). apply negb_true_iff in C1.
    assert (Y : N.lxor x v = xsum vs) by (rewrite <- E; apply N.bits_inj; intros n; rewrite !N.lxor_spec; btauto).
    rewrite Y in C1. rewrite M in C1; [discriminate|]. destruct (one_left l vs F) as [O|O]; [lia|auto|]. right. cbn. apply in_or_app. auto.
Qed.
Lemma three_left m l vs : Forall2 fits vs l -> (nz vs <= 3)%nat -> (forall v, v = 0 \/ In v (concat l) -> has m v = true) -> (Forall (fun row => ~ In 0 row) l) ->
  chk2 m l = true -> xsum vs = 0 -> nz vs = 0%nat.
Proof.
  induction 1 as [|v row vs l H F IH]; intros Z M NO C E; [reflexivity|]. rewrite nz_cons in *. cbn [chk2] in C. apply andb_true_iff in C as [C1 C2]. inversion NO; subst.
  cbn [xsum fold_right] in E. fold (xsum vs) in E. destruct (v =? 0) eqn:V.
  - apply N.eqb_eq in V. subst v. rewrite N.lxor_0_l in E. rewrite IH; auto. intros w [W|W]; apply M; auto. right. cbn. apply in_or_app. auto.
  - exfalso. apply N.eqb_neq in V. destruct H as [H|H]; [contradiction|]. rewrite forallb_forall in C1. specialize (C1 v H).
    eapply (two_left m l vs v F); eauto; [lia| |symmetry; apply N.lxor_eq; exact E]. intros w [W|W]; apply M; auto. right. cbn. apply in_or_app. auto.
Qed.
Lemma in_mk l v : v = 0 \/ In v l -> has (mk_ones l) v = true.
Proof. intros H. apply has_fold. right. destruct H as [->|H]; [apply in_eq|apply in_cons; exact H]. Qed.
Lemma in_cols v : v = 0 \/ In v (concat cols) -> has ones v = true.
Proof. exact (in_mk (concat cols) v). Qed.
Opaque ones near rows pw.
Lemma cols_no0 : Forall (fun row => ~ In 0 row) cols.
Proof.
  assert (B : forallb (fun row => negb (existsb (N.eqb 0) row)) cols = true) by (vm_cast_no_check (@eq_refl bool true)).
  apply Forall_forall. intros row R H. rewrite forallb_forall in B. specialize (B row R). apply negb_true_iff in B.
  assert (existsb (N.eqb 0) row = true) by (apply existsb_exists; exists 0; auto). congruence.
Qed.
Lemma hrow_fits i h l : h < 4 -> l < 32 -> fits (N.lxor (pw (4 + i) h) (pw i l)) (hrow i).
Proof.
  intros H L. destruct (N.lxor (pw (4 + i) h) (pw i l) =? 0) eqn:E; [left; apply N.eqb_eq; exact E|right]. unfold hrow. apply filter_In. split; [|rewrite E; reflexivity].
  apply in_flat_map. exists h. split; [|apply in_map_iff; exists l; split; [reflexivity|apply in_v32; exact L]].
  assert (h = 0 \/ h = 1 \/ h = 2 \/ h = 3) by lia. cbn. intuition.
Qed.
Lemma weigh_fits ds : five ds -> Forall2 fits (weigh ds) (map (fun i => map (pw i) v31) (rev (seq 0 (length ds)))).
Proof.
  induction 1 as [|d ds D F IH]; [constructor|]. cbn [weigh length]. rewrite seq_S, rev_app_distr. cbn [rev app map]. constructor; [|exact IH].
  destruct (N.eq_dec d 0) as [->|N0]; [left; apply pw_0|right; apply in_map, in_v31; auto].
Qed.
Lemma parts_fit h1 h2 h3 l1 l2 l3 ds : h1 < 4 -> h2 < 4 -> h3 < 4 -> l1 < 32 -> l2 < 32 -> l3 < 32 -> five ds -> length ds = 58%nat -> Forall2 fits (parts h1 h2 h3 l1 l2 l3 ds) cols.
Proof.
  intros H1 H2 H3 L1 L2 L3 F L. pose proof (weigh_fits ds F) as W. rewrite L in W. unfold parts, cols. cbn [app].
  constructor; [apply (hrow_fits 60); auto|]. constructor; [apply (hrow_fits 59); auto|]. constructor; [apply (hrow_fits 58); auto|]. exact W.
Qed.
Lemma parts_zero h1 h2 h3 l1 l2 l3 ds : h1 < 4 -> h2 < 4 -> h3 < 4 -> l1 < 32 -> l2 < 32 -> l3 < 32 -> five ds -> length ds = 58%nat ->
  (nz (parts h1 h2 h3 l1 l2 l3 ds) <= 3)%nat -> fold_left b32_step ([h1; h2; h3; 0; l1; l2; l3] ++ ds) 0 = 0 -> nz (parts h1 h2 h3 l1 l2 l3 ds) = 0%nat.
Proof.
  intros H1 H2 H3 L1 L2 L3 F L Z E. rewrite fold_parts in E by exact L.
  exact (three_left ones cols _ (parts_fit h1 h2 h3 l1 l2 l3 ds H1 H2 H3 L1 L2 L3 F L) Z in_cols cols_no0 chk_ones E).
Qed.
