Require Import List Arith NArith ZArith Bool Lia Permutation Sorted.
From Verif Require Import OrdLib WalletModel WalletSpec WalletProofs WalletCache BalModel BalSpec.
Import ListNotations.
Open Scope N_scope.

Lemma kcmp_total : TotalCmp kcmp.
Proof. apply lexcmp_total; apply Ncompare_total. Qed.
Notation KT := kcmp_total.
Lemma kcmp_eqb a b : (match kcmp a b with Eq => true | _ => false end) = key_eqb a b.
Proof.
  destruct (kcmp a b) eqn:E; destruct (key_eqb_spec a b) as [H|H]; auto.
  - apply (tc_eq KT) in E. contradiction.
  - apply (tc_eq KT) in H. congruence.
  - apply (tc_eq KT) in H. congruence.
Qed.

(** the table *)
Lemma table_fold ws : forall t f, asorted kcmp t -> (forall k, table_find t k = Some (f k) \/ (table_find t k = None /\ f k = 0)) ->
  asorted kcmp (fold_left table_insert ws t) /\
  forall k, let v := fold_left (fun v w => if key_eqb (fst w) k then snd w else v) ws (f k) in
    table_find (fold_left table_insert ws t) k = Some v \/ (table_find (fold_left table_insert ws t) k = None /\ v = 0).
Proof.
  induction ws as [|[k0 v0] ws IH]; intros t f SO TF; cbn [fold_left]; [split; [exact SO | exact TF]|].
  specialize (IH (table_insert t (k0, v0)) (fun k => if key_eqb k0 k then v0 else f k)). cbn [fst snd]. apply IH.
  - unfold table_insert. apply (aset_sorted KT). exact SO.
  - intros k. unfold table_find, table_insert. cbn [fst snd]. rewrite (aget_aset KT) by exact SO. pose proof (kcmp_eqb k k0) as Q.
    assert (Q2 : key_eqb k k0 = key_eqb k0 k) by (destruct (key_eqb_spec k k0), (key_eqb_spec k0 k); congruence).
    destruct (kcmp k k0); rewrite Q2 in Q; rewrite <- Q; auto; apply TF.
Qed.
Lemma table_sorted ws : asorted kcmp (table_of ws).
Proof. apply (table_fold ws [] (fun _ => 0)); [constructor | right; split; reflexivity]. Qed.
Lemma balance_held ws a c : get_balance (table_of ws) a c = held ws a c.
Proof.
  unfold get_balance, held, table_of. destruct (table_fold ws [] (fun _ => 0)) as (_ & H); [constructor | right; split; reflexivity|].
  specialize (H (a, c)). cbv zeta in H. destruct H as [-> | (-> & ->)]; reflexivity.
Qed.
Lemma in_table ws a c v : In ((a, c), v) (table_of ws) -> held ws a c = v.
Proof. intros H. apply (aget_In KT) in H; [|apply table_sorted]. rewrite <- balance_held. unfold get_balance, table_find. rewrite H. reflexivity. Qed.
Lemma held_in ws a c : held ws a c <> 0 -> In ((a, c), held ws a c) (table_of ws).
Proof.
  intros H. apply (aget_In KT); [apply table_sorted|]. revert H. rewrite <- balance_held. unfold get_balance, table_find.
  destruct (aget kcmp (a, c) (table_of ws)); [reflexivity | congruence].
Qed.
Lemma table_keys ws : forall t r, In r (fold_left table_insert ws t) -> asorted kcmp t -> In (fst r) (map fst ws) \/ In r t.
Proof.
  induction ws as [|w ws IH]; intros t r H SO; [right; exact H|]. cbn [fold_left] in H. apply IH in H; [|apply (aset_sorted KT); exact SO].
  destruct H as [H|H]; [left; right; exact H|]. destruct r as (k, v). unfold table_insert in H. apply (aset_In KT) in H; [|exact SO].
  destruct H as [(-> & ->) | (_ & H)]; [left; left; reflexivity | right; assumption].
Qed.
Lemma table_length ws : forall t, (length (fold_left table_insert ws t) <= length t + length ws)%nat.
Proof.
  induction ws as [|w ws IH]; intros t; cbn; [lia|]. specialize (IH (table_insert t w)).
  assert (Q : (length (table_insert t w) <= S (length t))%nat).
  { unfold table_insert. generalize (fst w) (snd w). clear. intros k v. induction t as [|[k' v'] t IH]; cbn; [lia|]. destruct (kcmp k k'); cbn; lia. }
  lia.
Qed.
Lemma asorted_nodup (t : table) : asorted kcmp t -> NoDup (map fst t).
Proof.
  unfold asorted. intros H. induction H as [|x l S IH F]; constructor; [|exact IH]. intros HI. rewrite Forall_forall in F. apply (klt_irrefl KT (x := x)). apply F, HI.
Qed.

(** ranges *)
Lemma rows_until_eq hi l : asorted kcmp l -> forall n, rows_until hi n l = firstn (N.to_nat n) (filter (fun r => match kcmp (fst r) hi with Lt => true | _ => false end) l).
Proof.
  intros SO. induction l as [|[k v] l IH]; intros n; [destruct (N.to_nat n); reflexivity|]. apply asorted_cons_inv in SO. destruct SO as (SO & HL).
  cbn [rows_until filter fst]. destruct (N.eqb_spec n 0) as [->|Hn].
  - reflexivity.
  - destruct (kcmp k hi) eqn:E.
    + apply (tc_eq KT) in E. subst. replace (filter _ l) with (@nil (key * N)); [destruct (N.to_nat n); reflexivity|]. symmetry. clear IH Hn.
      assert (Q : forall x, In x l -> (match kcmp (fst x) hi with Lt => true | _ => false end) = false).
      { intros [k' v'] HI. cbn. specialize (HL _ _ HI). destruct (kcmp k' hi) eqn:E; auto. exfalso. eapply (klt_asym KT); eauto. }
      clear SO HL. induction l as [|x l IHl]; [reflexivity|]. cbn. rewrite (Q x) by (left; reflexivity). apply IHl. intros y Hy. apply Q. right. exact Hy.
    + destruct (N.to_nat n) as [|m] eqn:Em; [lia|]. cbn. rewrite IH by exact SO. f_equal. f_equal. lia.
    + replace (filter _ l) with (@nil (key * N)); [destruct (N.to_nat n); reflexivity|]. symmetry. clear IH Hn. apply (cmp_gt_lt KT) in E.
      assert (Q : forall x, In x l -> (match kcmp (fst x) hi with Lt => true | _ => false end) = false).
      { intros [k' v'] HI. cbn. specialize (HL _ _ HI). destruct (kcmp k' hi) eqn:E'; auto. exfalso. eapply (klt_asym KT); [exact E|]. eapply (klt_trans KT); eauto. }
      clear SO HL. induction l as [|x l IHl]; [reflexivity|]. cbn. rewrite (Q x) by (left; reflexivity). apply IHl. intros y Hy. apply Q. right. exact Hy.
Qed.
Lemma seek_eq lo l : asorted kcmp l -> seek lo l = filter (fun r => match kcmp (fst r) lo with Lt => false | _ => true end) l.
Proof.
  induction l as [|[k v] l IH]; intros SO; [reflexivity|]. cbn [seek filter fst]. apply asorted_cons_inv in SO. destruct SO as (SO & HL). destruct (kcmp k lo) eqn:E.
  - apply (tc_eq KT) in E. subst. f_equal. symmetry. clear IH. assert (Q : forall x, In x l -> (match kcmp (fst x) lo with Lt => false | _ => true end) = true).
    { intros [k' v'] HI. cbn. specialize (HL _ _ HI). destruct (kcmp k' lo) eqn:E; auto. exfalso. eapply (klt_asym KT); eauto. }
    clear SO HL. induction l as [|x l IHl]; [reflexivity|]. cbn. rewrite (Q x) by (left; reflexivity). f_equal. apply IHl. intros y Hy. apply Q. right. exact Hy.
  - apply IH, SO.
  - f_equal. symmetry. clear IH. apply (cmp_gt_lt KT) in E. assert (Q : forall x, In x l -> (match kcmp (fst x) lo with Lt => false | _ => true end) = true).
    { intros [k' v'] HI. cbn. specialize (HL _ _ HI). destruct (kcmp k' lo) eqn:E'; auto. exfalso. eapply (klt_asym KT); [exact E|]. eapply (klt_trans KT); eauto. }
    clear SO HL. induction l as [|x l IHl]; [reflexivity|]. cbn. rewrite (Q x) by (left; reflexivity). f_equal. apply IHl. intros y Hy. apply Q. right. exact Hy.
Qed.
Definition rows_of (t : table) (a : N) : table := filter (fun r => (fst (fst r) =? a) && (snd (fst r) <? ones)) t.
Lemma range_of t a n : asorted kcmp t -> find_range (a, 0) (a, ones) n t = firstn (N.to_nat n) (rows_of t a).
Proof.
  intros SO. unfold find_range. rewrite seek_eq by exact SO. rewrite rows_until_eq by (apply asorted_filter, SO). f_equal. rewrite filter_and. unfold rows_of.
  apply filter_ext. intros [[a' c'] v']. unfold kcmp, lexcmp. cbn [fst snd].
  destruct (N.compare_spec a' a) as [H|H|H]; destruct (N.eqb_spec a' a) as [H2|H2]; try lia; try reflexivity. cbn [andb].
  destruct (N.compare_spec c' 0); try lia; cbn [andb]; destruct (N.compare_spec c' ones); destruct (N.ltb_spec c' ones); auto; lia.
Qed.

(** sets *)
Lemma set_insert_in a s x : In x (set_insert a s) <-> x = a \/ In x s.
Proof.
  induction s as [|b s IH]; cbn; [intuition|]. destruct (N.ltb_spec a b); [cbn; intuition|]. destruct (N.ltb_spec b a); [cbn; rewrite IH; intuition|].
  assert (a = b) by lia. subst. cbn. intuition.
Qed.
Lemma set_insert_sorted a s : StronglySorted N.lt s -> StronglySorted N.lt (set_insert a s).
Proof.
  induction s as [|b s IH]; intros H; cbn; [repeat constructor|]. inversion H as [|x l S F]; subst. destruct (N.ltb_spec a b).
  - constructor; [exact H|]. constructor; [assumption|]. eapply Forall_impl; [|exact F]. intros; cbn in *; lia.
  - destruct (N.ltb_spec b a); [|exact H]. constructor; [apply IH, S|]. apply Forall_forall. intros y Hy. apply set_insert_in in Hy. rewrite Forall_forall in F.
    destruct Hy as [->|Hy]; [assumption | apply F, Hy].
Qed.
Lemma set_of_spec l : forall s, StronglySorted N.lt s -> StronglySorted N.lt (fold_left (fun s a => set_insert a s) l s) /\ forall x, In x (fold_left (fun s a => set_insert a s) l s) <-> In x l \/ In x s.
Proof.
  induction l as [|a l IH]; intros s H; cbn [fold_left]; [split; [exact H | cbn; intuition]|]. destruct (IH (set_insert a s)) as (A & B); [apply set_insert_sorted, H|].
  split; [exact A|]. intros x. rewrite B, set_insert_in. cbn. intuition.
Qed.
Lemma set_of_in l x : In x (set_of l) <-> In x l.
Proof. unfold set_of. destruct (set_of_spec l []) as (_ & B); [constructor|]. rewrite B. cbn. intuition. Qed.
Lemma set_of_nodup l : NoDup (set_of l).
Proof.
  unfold set_of. destruct (set_of_spec l []) as (A & _); [constructor|]. induction A as [|x m S IH F]; constructor; [|exact IH].
  intros HI. rewrite Forall_forall in F. specialize (F _ HI). lia.
Qed.
Lemma set_of_perm l : Permutation (set_of l) (nodup N.eq_dec l).
Proof. apply NoDup_Permutation; [apply set_of_nodup | apply NoDup_nodup|]. intros x. rewrite set_of_in, nodup_In. reflexivity. Qed.
Lemma held_by_set ws l c : held_by ws l c = sum (map (fun a => held ws a c) (set_of l)).
Proof. unfold held_by. apply sum_perm, Permutation_map, Permutation_sym, set_of_perm. Qed.

(** sums *)
Lemma total_balance ws l c : held_by ws l c < M -> get_total_balance (table_of ws) l c = held_by ws l c.
Proof.
  rewrite held_by_set. unfold get_total_balance. intros H.
  assert (Q : forall m acc, acc + sum (map (fun a => held ws a c) m) < M -> fold_left (fun total a => add128 total (get_balance (table_of ws) a c)) m acc = acc + sum (map (fun a => held ws a c) m)).
  { induction m as [|a m IH]; intros acc Hm; cbn [fold_left map]; [cbn; lia|]. cbn [map] in Hm. rewrite sum_cons in Hm |- *. rewrite balance_held.
    rewrite add_small by lia. rewrite IH by lia. lia. }
  rewrite Q; [reflexivity|]. exact H.
Qed.

Section TOTALS.
  Context {K : Type}.
  Variables (eqb ltb : K -> K -> bool) (f : key -> K).
  Hypothesis eqb_spec : forall a b, reflect (a = b) (eqb a b).
  Definition gsum (R : list (key * N)) (k : K) : N := sum (map snd (filter (fun r => eqb (f (fst r)) k) R)).
  Lemma gsum_cons r R k : gsum (r :: R) k = (if eqb (f (fst r)) k then snd r else 0) + gsum R k.
  Proof. unfold gsum. cbn [filter]. destruct (eqb (f (fst r)) k); [cbn [map]; rewrite sum_cons|]; lia. Qed.
  Lemma gsum_app R R' k : gsum (R ++ R') k = gsum R k + gsum R' k.
  Proof. unfold gsum. rewrite filter_app, map_app, sum_app. reflexivity. Qed.
  Definition gadd (m : list (K * N)) (r : key * N) : list (K * N) := if snd r =? 0 then m else put eqb ltb m (f (fst r)) (add128 (at0 eqb m (f (fst r))) (snd r)).
  Lemma gadd_fold R : forall m s, (forall k, get eqb m k = entry_for (s k)) -> (forall k, s k + gsum R k < M) ->
    forall k, get eqb (fold_left gadd R m) k = entry_for (s k + gsum R k).
  Proof.
    induction R as [|r R IH]; intros m s HM HS k; cbn [fold_left]; [rewrite HM; unfold gsum; cbn; f_equal; lia|].
    rewrite (IH (gadd m r) (fun k => s k + if eqb (f (fst r)) k then snd r else 0)).
    - f_equal. rewrite gsum_cons. lia.
    - intros k'. unfold gadd. destruct (N.eqb_spec (snd r) 0) as [E|E].
      + rewrite HM. f_equal. rewrite E. destruct (eqb _ k'); lia.
      + rewrite (get_put eqb ltb eqb_spec). destruct (eqb_spec (f (fst r)) k') as [HK|H]; [rewrite HK|].
        * assert (at0 eqb m k' = s k') as ->. { unfold at0. rewrite HM. unfold entry_for. destruct (N.eqb_spec (s k') 0); lia. }
          rewrite add_small.
          -- unfold entry_for. destruct (N.eqb_spec (s k' + snd r) 0); [lia | reflexivity].
          -- specialize (HS k'). rewrite gsum_cons in HS. destruct (eqb_spec (f (fst r)) k'); [lia | contradiction].
        * rewrite HM. f_equal. lia.
    - intros k'. specialize (HS k'). rewrite gsum_cons in HS. lia.
  Qed.
End TOTALS.

Lemma filter_len {A} (f : A -> bool) l : (length (filter f l) <= length l)%nat.
Proof. induction l as [|x l IH]; cbn; [lia|]. destruct (f x); cbn; lia. Qed.
(** the rows that are read *)
Lemma firstn_in {A} n (l : list A) x : In x (firstn n l) -> In x l.
Proof. intros H. rewrite <- (firstn_skipn n l). apply in_or_app. left. exact H. Qed.
Lemma nodup_firstn {A} n (l : list A) : NoDup l -> NoDup (firstn n l).
Proof. revert n. induction l as [|x l IH]; intros n H; destruct n; cbn; try constructor; inversion H; subst; auto. intros HI. apply firstn_in in HI. contradiction. Qed.
Lemma gsum_keys (R : list (key * N)) k : NoDup (map fst R) -> gsum key_eqb (fun k => k) R k = bal R k.
Proof. apply sum_nodup. Qed.
Lemma gsum_cur a R c : Forall (fun r => fst (fst r) = a) R -> gsum N.eqb snd R c = gsum key_eqb (fun k => k) R (a, c).
Proof.
  intros H. unfold gsum. f_equal. f_equal. apply filter_ext_in. intros [[a' c'] v] HI. rewrite Forall_forall in H. specialize (H _ HI). cbn in *. subst.
  unfold key_eqb. cbn. rewrite N.eqb_refl. reflexivity.
Qed.
Lemma gsum_other a R k : Forall (fun r => fst (fst r) = a) R -> fst k <> a -> gsum key_eqb (fun k => k) R k = 0.
Proof.
  intros H HK. unfold gsum. replace (filter _ R) with (@nil (key * N)); [reflexivity|]. symmetry. induction H as [|[[a' c'] v] R HR HF IH]; [reflexivity|]. cbn in *. subst a'.
  unfold key_eqb at 1. cbn. destruct (N.eqb_spec a (fst k)); [congruence|]. exact IH.
Qed.
Lemma gsum_flat {K} (eqb : K -> K -> bool) f (rr : N -> list (key * N)) A k : gsum eqb f (flat_map rr A) k = sum (map (fun a => gsum eqb f (rr a) k) A).
Proof. induction A as [|a A IH]; [reflexivity|]. cbn [flat_map map]. rewrite gsum_app, sum_cons, IH. reflexivity. Qed.

Section READ.
  Variables (ws : list (key * N)) (whitelist : list N).
  Hypothesis WD : NoDup whitelist.
  Notation T := (table_of ws).

  Lemma rows_a limit a : Forall (fun r => fst (fst r) = a) (read_rows T whitelist limit a).
  Proof.
    clear WD.
    unfold read_rows. destruct whitelist as [|w W].
    - rewrite range_of by apply table_sorted. apply Forall_forall. intros r H. apply firstn_in in H. unfold rows_of in H. apply filter_In in H. destruct H as (_ & H).
      apply andb_prop in H. destruct H as (H & _). apply N.eqb_eq in H. exact H.
    - apply Forall_forall. intros r H. apply in_map_iff in H. destruct H as (c & <- & _). reflexivity.
  Qed.
  Lemma rows_nodup limit a : NoDup (map fst (read_rows T whitelist limit a)).
  Proof.
    unfold read_rows. destruct whitelist as [|w W].
    - rewrite range_of by apply table_sorted. rewrite <- firstn_map. apply nodup_firstn. unfold rows_of. apply asorted_nodup, asorted_filter, table_sorted.
    - rewrite map_map. cbn [fst]. apply FinFun.Injective_map_NoDup; [|exact WD]. intros x y E. congruence.
  Qed.
  Lemma rows_value limit a c v : In ((a, c), v) (read_rows T whitelist limit a) -> v = held ws a c /\ wanted whitelist c = true.
  Proof.
    clear WD.
    unfold read_rows, wanted. destruct whitelist as [|w W].
    - rewrite range_of by apply table_sorted. intros H. apply firstn_in in H. unfold rows_of in H. apply filter_In in H. destruct H as (H & _). apply in_table in H. auto.
    - intros H. apply in_map_iff in H. destruct H as (c' & E & H). injection E as -> <-. rewrite balance_held. split; [reflexivity|].
      apply existsb_exists. exists c. split; [exact H | apply N.eqb_refl].
  Qed.
  Lemma bal_rows limit a c : bal (read_rows T whitelist limit a) (a, c) = 0 \/ (bal (read_rows T whitelist limit a) (a, c) = held ws a c /\ wanted whitelist c = true).
  Proof.
    clear WD.
    unfold bal, at0. destruct (get key_eqb (read_rows T whitelist limit a) (a, c)) as [v|] eqn:E; [|left; reflexivity].
    apply (get_in key_eqb key_eqb_spec) in E. apply rows_value in E. right. exact E.
  Qed.

  (** all rows are read *)
  Lemma ever_rows a : (length (rows_of T a) <= length (ever ws a))%nat.
  Proof.
    assert (Q : NoDup (map snd (map fst (rows_of T a)))).
    { assert (ND : NoDup (map fst (rows_of T a))) by (apply asorted_nodup, asorted_filter, table_sorted).
      assert (FA : Forall (fun k => fst k = a) (map fst (rows_of T a))).
      { apply Forall_forall. intros k H. apply in_map_iff in H. destruct H as (r & <- & H). apply filter_In in H. destruct H as (_ & H). apply andb_prop in H. destruct H as (H & _).
        apply N.eqb_eq in H. exact H. }
      revert ND FA. generalize (map fst (rows_of T a)). intros l ND FA. induction ND as [|[a' c'] l HN ND IH]; [constructor|]. inversion FA as [|x y F1 F2]; subst. cbn in *.
      constructor; [|apply IH; exact F2]. intros HI. apply in_map_iff in HI. destruct HI as ([a2 c2] & E & HI). cbn in E. subst c2. rewrite Forall_forall in F2. specialize (F2 _ HI). cbn in F2. subst. contradiction. }
    replace (length (rows_of T a)) with (length (map snd (map fst (rows_of T a)))) by (rewrite !map_length; reflexivity). apply (NoDup_incl_length Q). intros c H. rewrite map_map in H. apply in_map_iff in H. destruct H as ([[a' c'] v] & <- & H).
    apply filter_In in H. destruct H as (H & HA). cbn in HA. apply andb_prop in HA. destruct HA as (HA & _). apply N.eqb_eq in HA. subst a'.
    unfold ever. apply nodup_In. apply table_keys in H; [|constructor]. destruct H as [H|[]]. cbn in *. apply in_map_iff in H. destruct H as (w & E & H).
    apply in_map_iff. destruct w as (k0, v0). cbn in E. subst k0. exists ((a, c'), v0). split; [reflexivity|]. apply filter_In. split; [exact H | apply N.eqb_refl].
  Qed.
  Lemma bal_full addresses limit a c : no_ones ws -> limit_enough ws addresses limit -> In a addresses ->
    bal (read_rows T whitelist limit a) (a, c) = if wanted whitelist c then held ws a c else 0.
  Proof.
    intros NO (LR & LW & LE) HA. destruct (bal_rows limit a c) as [E|(E & W)]; [|rewrite W; exact E]. rewrite E. destruct (wanted whitelist c) eqn:W; [|reflexivity].
    destruct (N.eq_dec (held ws a c) 0) as [H|H]; [lia|]. exfalso. revert E.
    assert (HI : In ((a, c), held ws a c) (read_rows T whitelist limit a)).
    { unfold read_rows. destruct whitelist as [|w Wl].
      - rewrite range_of by apply table_sorted. rewrite firstn_all2.
        + unfold rows_of. apply filter_In. split; [apply held_in, H|]. cbn [fst snd]. rewrite N.eqb_refl. cbn [andb]. apply N.ltb_lt.
          apply held_in in H. apply table_keys in H; [|constructor]. destruct H as [H|[]]. apply in_map_iff in H. destruct H as (w & E & H). unfold no_ones in NO. rewrite Forall_forall in NO.
          specialize (NO _ H). destruct w as (k0, v0). cbn in E. subst k0. exact NO.
        + pose proof (ever_rows a) as Q1. assert (Q2 : (length (rows_of T a) <= length ws)%nat).
          { unfold rows_of. transitivity (length T); [apply filter_len|]. apply (table_length ws []). }
          assert (size_of limit >= N.of_nat (length (rows_of T a))); [|lia]. unfold size_of. destruct LE as [LE|LE].
          * replace (limit mod 2 ^ 64)%Z with (limit + 2 ^ 64)%Z; [lia|]. rewrite <- (Z.mod_add _ 1) by lia. rewrite Z.mod_small; lia.
          * specialize (LE _ HA). rewrite Z.mod_small by lia. lia.
      - apply in_map_iff. exists c. rewrite balance_held. split; [reflexivity|]. cbn [wanted] in W. apply existsb_exists in W. destruct W as (x & HI & HX). apply N.eqb_eq in HX. subst. exact HI. }
    unfold bal, at0. rewrite (get_nodup key_eqb key_eqb_spec _ _ _ (rows_nodup limit a) HI). exact H.
  Qed.
End READ.
