(** Proofs about choosing the transactions of a block *)
Require Import List Arith NArith ZArith Bool Lia Sorted.
From Verif Require Import BytesLib OrdLib VarModel InstrModel EngineModel EngineSpec EngineProofs EngineUpper ExecModel ExecSpec ExecProofs
  StorModel StorSpec StorProofs TxModel TxSpec TxProofs BlockModel BlockSpec BlockProofs.
Import ListNotations.
Open Scope N_scope.

(** ** parts of a list *)
Inductive sub {A} : list A -> list A -> Prop :=
  | sub_nil : sub [] []
  | sub_skip x l l' : sub l l' -> sub l (x :: l')
  | sub_take x l l' : sub l l' -> sub (x :: l) (x :: l').
Lemma sub_refl {A} (l : list A) : sub l l.
Proof. induction l; [apply sub_nil|now apply sub_take]. Qed.
Lemma sub_in {A} (l l' : list A) x : sub l l' -> In x l -> In x l'.
Proof. induction 1; cbn; intuition. Qed.
Lemma sub_map {A B} (f : A -> B) l l' : sub l l' -> sub (map f l) (map f l').
Proof. induction 1; cbn; [apply sub_nil|now apply sub_skip|now apply sub_take]. Qed.
Lemma sub_trans {A} (l l' l'' : list A) : sub l l' -> sub l' l'' -> sub l l''.
Proof.
  intros H1 H2. revert l H1. induction H2 as [|x l' l'' H IH|x l' l'' H IH]; intros l H1; auto.
  - apply sub_skip. auto.
  - inversion H1; subst; [apply sub_skip|apply sub_take]; auto.
Qed.
Lemma sub_nodup {A} (l l' : list A) : sub l l' -> NoDup l' -> NoDup l.
Proof.
  induction 1 as [|x l l' H IH|x l l' H IH]; intros N; auto.
  - inversion N. auto.
  - inversion N as [|? ? NI ND]; subst. constructor; auto. intros I. apply NI. eapply sub_in; eauto.
Qed.
Lemma sub_sorted {A} (R : A -> A -> Prop) (l l' : list A) : sub l l' -> StronglySorted R l' -> StronglySorted R l.
Proof.
  induction 1 as [|x l l' H IH|x l l' H IH]; intros N; auto.
  - inversion N. auto.
  - inversion N as [|? ? SS FA]; subst. constructor; auto. rewrite Forall_forall in *. intros y I. apply FA. eapply sub_in; eauto.
Qed.
Lemma sub_sum {A} (f : A -> N) l l' : sub l l' -> nsum (map f l) <= nsum (map f l').
Proof. induction 1; cbn [map nsum fold_right]; unfold nsum in *; lia. Qed.

(** ** what is chosen is a part of the pool *)
Definition key (t : tx) : addr * N := (t_id t, t_ratio t).
Lemma select_cost_sub max l : forall total, sub (map key (select_cost max total l)) (map (fun e => key (fst e)) l).
Proof.
  induction l as [|(t, c) l IH]; intros total; cbn [select_cost map]; [constructor|]. destruct (_ <=? _); cbn [map fst]; [apply sub_take|apply sub_skip]; apply IH.
Qed.
Lemma execute_sub n bal l : forall s, sub (map key (execute_txs n bal l s)) (map key l).
Proof.
  induction l as [|t l IH]; intros s; cbn [execute_txs map]; [constructor|].
  destruct (validate _ _ _ _) as [| |r w| |]; try (apply sub_skip; apply IH). destruct (commit_tx w s); [|apply sub_skip; apply IH].
  cbn [map]. change (key (update r t)) with (key t). apply sub_take. apply IH.
Qed.
Lemma select_final_sub n P l : forall size cost b, sub (select_final n P size cost b l) l.
Proof.
  induction l as [|t l IH]; intros size cost b; cbn [select_final]; [constructor|]. destruct (_ || _); [apply sub_skip; auto|].
  destruct (take_tx b t); [apply sub_take|apply sub_skip]; auto.
Qed.
Lemma select_bands_sub n min l : forall avail i, sub (select_bands n min avail i l) l.
Proof.
  induction l as [|t l IH]; intros avail i; cbn [select_bands]; [constructor|]. cbv zeta.
  destruct (_ <? _); [destruct (lower_band avail min (t_ratio t) i)|]; [apply sub_skip|apply sub_take|apply sub_take]; auto.
Qed.
Lemma choose_bands_sub n P l : sub (choose_bands n P l) l.
Proof. unfold choose_bands. destruct (p_bands P); [apply sub_refl|apply select_bands_sub]. Qed.

(** ** size and cost *)
Lemma select_final_size n P l : forall size cost b, size <= p_max_size P -> size + size_of n (select_final n P size cost b l) <= p_max_size P.
Proof.
  unfold size_of. induction l as [|t l IH]; intros size cost b L; cbn [select_final]; [cbn; lia|].
  destruct (N.ltb_spec (p_max_size P) (size + static_cost n t)); cbn [orb]; [auto|]. destruct (_ <? _); [auto|].
  destruct (take_tx b t); [|auto]. cbn [map nsum fold_right]. fold (nsum (map (static_cost n) (select_final n P (size + static_cost n t) (cost + rs_cost (res t)) b0 l))).
  specialize (IH (size + static_cost n t) (cost + rs_cost (res t)) b0 H). lia.
Qed.
Lemma select_final_cost n P l : forall size cost b, cost <= p_max_cost P -> cost + cost_of (select_final n P size cost b l) <= p_max_cost P.
Proof.
  unfold cost_of. induction l as [|t l IH]; intros size cost b L; cbn [select_final]; [cbn; lia|].
  destruct (_ <? _); cbn [orb]; [auto|]. destruct (N.ltb_spec (p_max_cost P) (cost + rs_cost (res t))); [auto|].
  destruct (take_tx b t); [|auto]. cbn [map nsum fold_right].
  fold (nsum (map (fun t => rs_cost (res t)) (select_final n P (size + static_cost n t) (cost + rs_cost (res t)) b0 l))).
  specialize (IH (size + static_cost n t) (cost + rs_cost (res t)) b0 H). lia.
Qed.

(** ** funds *)
Definition more (b b' : balances) : Prop := forall a cur v, b a cur = Some v -> exists v', b' a cur = Some v' /\ v <= v'.
Lemma more_refl b : more b b. Proof. intros a cur v H. exists v. split; auto. lia. Qed.
Lemma more_trans b b' b'' : more b b' -> more b' b'' -> more b b''.
Proof. intros H1 H2 a cur v H. destruct (H1 _ _ _ H) as (v1 & E & L). destruct (H2 _ _ _ E) as (v2 & E2 & L2). exists v2. split; auto. lia. Qed.
Lemma take_more b a cur v b' : take b a cur v = Some b' -> more b' b.
Proof.
  unfold take. destruct (b a cur) as [x|] eqn:B; [|discriminate]. destruct (x <? v); [discriminate|]. intros [= <-] a' cur' v'.
  unfold set_balance. destruct (addr_eqb_spec a' a) as [->|]; [destruct (addr_eqb_spec cur' cur) as [->|]|]; cbn [andb]; intros H; eauto using more_refl.
  - injection H as <-. exists x. split; auto. lia.
  - exists v'. split; auto. lia.
  - exists v'. split; auto. lia.
Qed.
Lemma take_mono b1 b2 a cur v b1' : more b1 b2 -> take b1 a cur v = Some b1' -> exists b2', take b2 a cur v = Some b2' /\ more b1' b2'.
Proof.
  unfold take. intros M. destruct (b1 a cur) as [x|] eqn:B; [|discriminate]. destruct (N.ltb_spec x v) as [|L]; [discriminate|]. intros [= <-].
  destruct (M _ _ _ B) as (y & E & L2). rewrite E. destruct (N.ltb_spec y v); [lia|]. eexists. split; [reflexivity|].
  intros a' cur' v'. unfold set_balance. destruct (addr_eqb a' a && addr_eqb cur' cur); [|apply M]. intros [= <-]. eexists. split; [reflexivity|lia].
Qed.
Lemma take_inputs_more l : forall b b', take_inputs b l = Some b' -> more b' b.
Proof.
  induction l as [|i l IH]; cbn [take_inputs]; intros b b' H; [injection H as <-; apply more_refl|].
  destruct (take b _ _ _) as [b1|] eqn:T; [|discriminate]. apply IH in H. apply take_more in T. eapply more_trans; eauto.
Qed.
Lemma take_inputs_mono l : forall b1 b2 b1', more b1 b2 -> take_inputs b1 l = Some b1' -> exists b2', take_inputs b2 l = Some b2' /\ more b1' b2'.
Proof.
  induction l as [|i l IH]; cbn [take_inputs]; intros b1 b2 b1' M H; [injection H as <-; eauto|].
  destruct (take b1 _ _ _) as [b|] eqn:T; [|discriminate]. destruct (take_mono _ _ _ _ _ _ M T) as (b2' & -> & M2). eauto.
Qed.
Lemma take_tx_more b t b' : take_tx b t = Some b' -> more b' b.
Proof.
  unfold take_tx. destruct (t_sender t); [|discriminate]. destruct (take b _ _ _) as [b1|] eqn:T; [|discriminate]. apply take_more in T.
  destruct (rs_fail (res t)); [intros [= <-]; auto|]. intros H. apply take_inputs_more in H. eapply more_trans; eauto.
Qed.
Lemma take_tx_mono b1 b2 t b1' : more b1 b2 -> take_tx b1 t = Some b1' -> exists b2', take_tx b2 t = Some b2' /\ more b1' b2'.
Proof.
  unfold take_tx. intros M. destruct (t_sender t); [|discriminate]. destruct (take b1 _ _ _) as [b|] eqn:T; [|discriminate].
  destruct (take_mono _ _ _ _ _ _ M T) as (b2' & -> & M2). destruct (rs_fail (res t)); [intros [= <-]; eauto|]. now apply take_inputs_mono.
Qed.
Fixpoint funded (b : balances) (l : list tx) : Prop :=
  match l with [] => True | t :: l => exists b', take_tx b t = Some b' /\ funded b' l end.
Lemma funded_more l : forall b b', more b b' -> funded b l -> funded b' l.
Proof.
  induction l as [|t l IH]; cbn [funded]; auto. intros b b' M (b1 & T & F). destruct (take_tx_mono _ _ _ _ M T) as (b2 & T2 & M2). eauto.
Qed.
Lemma funded_sub l l' : sub l l' -> forall b, funded b l' -> funded b l.
Proof.
  induction 1 as [|x l l' H IH|x l l' H IH]; cbn [funded]; auto.
  - intros b (b' & T & F). apply IH. eapply funded_more; [|eauto]. eapply take_tx_more; eauto.
  - intros b (b' & T & F). eauto.
Qed.
Lemma select_final_funded n P l : forall size cost b, funded b (select_final n P size cost b l).
Proof.
  induction l as [|t l IH]; intros size cost b; cbn [select_final]; [exact I|]. destruct (_ || _); [auto|].
  destruct (take_tx b t) as [b'|] eqn:T; [|auto]. cbn [funded]. eauto.
Qed.
Definition falling (t t' : tx) : Prop := t_ratio t' <= t_ratio t.
Lemma check_txs_ok' l : forall ids ratio b, NoDup (map t_id l) -> (forall t, In t l -> ~ In (t_id t) ids) ->
  StronglySorted falling l -> (forall x t, ratio = Some x -> In t l -> t_ratio t <= x) -> Forall (fun t => t_sender t <> None /\ t_result t <> None) l -> funded b l ->
  check_txs ids ratio b l = true.
Proof.
  induction l as [|t l IH]; cbn [check_txs map]; auto. intros ids ratio b ND NI SS RA FA (b' & T & FU).
  inversion ND as [|? ? N1 N2]; subst. inversion SS as [|? ? S1 S2]; subst. inversion FA as [|? ? (F1 & F2) F3]; subst.
  destruct (t_sender t); [|congruence]. destruct (t_result t) as [r|] eqn:R; [|congruence].
  destruct (existsb (addr_eqb (t_id t)) ids) eqn:EX.
  { exfalso. apply existsb_exists in EX. destruct EX as (x & I & E). destruct (addr_eqb_spec (t_id t) x) as [<-|]; [|discriminate].
    apply (NI t); auto. now left. }
  destruct ratio as [x|].
  - destruct (N.ltb_spec x (t_ratio t)) as [L|]; [specialize (RA x t eq_refl ltac:(now left)); lia|]. rewrite T. apply IH; auto.
    + intros t' I [E|I2]; [|apply (NI t'); auto; now right]. apply N1. rewrite E. now apply in_map.
    + intros y t' [= <-] I. rewrite Forall_forall in S2. now apply S2.
  - rewrite T. apply IH; auto.
    + intros t' I [E|I2]; [|apply (NI t'); auto; now right]. apply N1. rewrite E. now apply in_map.
    + intros y t' [= <-] I. rewrite Forall_forall in S2. now apply S2.
Qed.

(** ** bands *)
Lemma nonempty_match {A} (l : list N) (x y : A) : l <> [] -> match l with [] => x | _ => y end = y.
Proof. now destruct l. Qed.
Lemma nonempty_length (l : list N) : l <> [] -> (0 < length l)%nat.
Proof. destruct l; [congruence|]. cbn. lia. Qed.
Section BANDS.
  Variable n : node.
  Variable P : rules.
  Let S := p_max_size P.
  Let K := N.of_nat (length (p_bands P)).
  Let band (i : N) : N := nth (N.to_nat i) (p_bands P) 0.
  Let upto (i : N) : N := i * S / K.
  Hypothesis size64 : S < 2 ^ 64.
  Hypothesis some : p_bands P <> [].
  Hypothesis rising : forall i j, (i <= j < length (p_bands P))%nat -> nth i (p_bands P) 0 <= nth j (p_bands P) 0.
  Hypothesis first : nth 0 (p_bands P) 0 <= 1.
  Lemma K_pos : K <> 0. Proof. unfold K. destruct (p_bands P); [congruence|]. cbn. lia. Qed.
  Lemma upto_mono i j : i <= j -> upto i <= upto j.
  Proof. intros. unfold upto. apply N.div_le_mono; [apply K_pos|]. now apply N.mul_le_mono_r. Qed.
  Lemma band_size_upto i : upto i + band_size S K i = upto (i + 1).
  Proof. unfold band_size. pose proof (upto_mono i (i + 1) ltac:(lia)). unfold upto in *. lia. Qed.
  Lemma band_size_min i : S / K <= band_size S K i.
  Proof.
    enough (upto i + S / K <= upto (i + 1)) by (pose proof (band_size_upto i); lia).
    unfold upto. apply N.div_le_lower_bound; [apply K_pos|]. rewrite N.mul_add_distr_l.
    pose proof (N.mul_div_le (i * S) K K_pos). pose proof (N.mul_div_le S K K_pos). lia.
  Qed.
  Lemma band_size_64 i : i < K -> band_size S K i < 2 ^ 64.
  Proof.
    intros L. pose proof (band_size_upto i). enough (upto (i + 1) <= S) by lia.
    unfold upto. apply N.div_le_upper_bound; [apply K_pos|]. apply N.mul_le_mono_r. lia.
  Qed.
  Lemma upto_top : upto K = S. Proof. unfold upto. rewrite N.mul_comm. apply N.div_mul, K_pos. Qed.

  (** the validator's loop, keeping its state *)
  Fixpoint bands_run (i total : N) (l : list tx) : option (N * N) :=
    match l with
    | [] => Some (i, total)
    | t :: l =>
      let total := total + static_cost n t in
      let i := skip_bands (length (p_bands P)) S K total i in
      match nth_error (p_bands P) (N.to_nat i) with
      | None => None
      | Some m => if t_ratio t <? m * 1024 then None else bands_run i total l
      end
    end.
  Lemma bands_run_check l : forall i total, check_bands n P i total l = match bands_run i total l with Some _ => true | None => false end.
  Proof.
    induction l as [|t l IH]; intros i total; cbn [check_bands bands_run]; auto. cbv zeta. fold S. fold K.
    destruct (nth_error _ _); auto. destruct (_ <? _); auto.
  Qed.
  Lemma bands_run_app l l' : forall i total, bands_run i total (l ++ l') =
    match bands_run i total l with Some (i, total) => bands_run i total l' | None => None end.
  Proof.
    induction l as [|t l IH]; intros i total; cbn [app bands_run]; auto. cbv zeta. destruct (nth_error _ _); auto. destruct (_ <? _); auto.
  Qed.
  Lemma skip_le f : forall total i j, i <= j -> total <= upto (j + 1) -> skip_bands f S K total i <= j.
  Proof.
    induction f as [|f IH]; intros total i j L T; cbn [skip_bands]; auto. fold (upto (i + 1)).
    destruct (N.ltb_spec (upto (i + 1)) total); auto. apply IH; auto.
    destruct (N.eq_dec i j) as [->|]; [lia|]. lia.
  Qed.

  (** the state of the builder: bands below [e] are untouched, [e] has no more than it had *)
  Definition tidy (avail : N -> N) (e : N) : Prop := (forall k, k < e -> avail k = band_size S K k) /\ avail e <= band_size S K e.
  Definition INVB (avail : N -> N) (i : nat) : Prop :=
    (i < length (p_bands P))%nat /\ (tidy avail (N.of_nat i) \/ (avail (N.of_nat i) = 0 /\ exists j, i = Datatypes.S j /\ tidy avail (N.of_nat j))).
  Lemma tidy_low avail e j : tidy avail e -> j < e -> tidy avail j.
  Proof. intros (T1 & T2) L. split; [intros; apply T1; lia|]. rewrite (T1 j L). lia. Qed.
  Lemma lower_ok avail ratio : forall i, INVB avail i -> 1024 <= ratio -> let i' := lower_band avail band ratio i in
    (i' <= i)%nat /\ tidy avail (N.of_nat i') /\ nth i' (p_bands P) 0 * 1024 <= ratio.
  Proof.
    intros i (LI & T) R. cbv zeta.
    assert (G : forall i, (i < length (p_bands P))%nat -> tidy avail (N.of_nat i) -> let i' := lower_band avail band ratio i in
                 (i' <= i)%nat /\ tidy avail (N.of_nat i') /\ nth i' (p_bands P) 0 * 1024 <= ratio).
    { clear i LI T. induction i as [|i IH]; intros LI T; cbn [lower_band].
      - split; auto. split; auto. nia.
      - destruct ((avail (N.of_nat (Datatypes.S i)) =? 0) || (ratio <? band (N.of_nat (Datatypes.S i)) * 1024)) eqn:C.
        + destruct IH as (I1 & I2 & I3); [lia|eapply tidy_low; eauto; lia|]. auto.
        + apply orb_false_elim in C. destruct C as (_ & C). apply N.ltb_ge in C. unfold band in C. rewrite Nat2N.id in C. auto. }
    destruct T as [T|(Z & j & -> & T)]; [now apply G|]. cbn [lower_band]. rewrite Z. cbn [N.eqb orb].
    destruct (G j) as (G1 & G2 & G3); [lia|auto|]. auto.
  Qed.
  (** what is left in the bands up to [i] *)
  Fixpoint cum (avail : N -> N) (i : nat) : N := match i with O => avail 0 | Datatypes.S j => cum avail j + avail (N.of_nat i) end.
  Lemma cum_tidy avail i : tidy avail (N.of_nat i) -> cum avail i <= upto (N.of_nat i + 1) /\ forall j, (j <= i)%nat -> cum avail j <= cum avail i.
  Proof.
    induction i as [|i IH]; intros T.
    - cbn [cum]. destruct T as (_ & T). pose proof (band_size_upto 0) as B. split; [change (N.of_nat 0) with 0 in *; lia|].
      intros j L. replace j with O by lia. cbn. lia.
    - destruct IH as (I1 & I2); [eapply tidy_low; eauto; lia|]. cbn [cum]. destruct T as (_ & T). pose proof (band_size_upto (N.of_nat (Datatypes.S i))).
      replace (N.of_nat i + 1) with (N.of_nat (Datatypes.S i)) in I1 by lia. split; [lia|].
      intros j L. destruct (Nat.eq_dec j (Datatypes.S i)) as [->|]; [cbn [cum]; lia|]. specialize (I2 j ltac:(lia)). lia.
  Qed.
  Lemma cum_ext f g i : (forall k, k <= N.of_nat i -> f k = g k) -> cum f i = cum g i.
  Proof. induction i as [|i IH]; intros H; cbn [cum]; [apply H; lia|]. rewrite IH by (intros; apply H; lia). rewrite H by lia. auto. Qed.
  Lemma select_bands_ok l : Forall (fun t => 1024 <= t_ratio t /\ static_cost n t <= S / K) l ->
    forall avail i, INVB avail i ->
    exists iv, bands_run 0 0 (rev (select_bands n band avail i l)) = Some (iv, size_of n (select_bands n band avail i l)) /\ iv <= N.of_nat i /\
      size_of n (select_bands n band avail i l) <= cum avail i.
  Proof.
    induction 1 as [|t l (R & C) F IH]; intros avail i INV.
    - exists 0. cbn. split; auto. split; lia.
    - cbn [select_bands]. cbv zeta. destruct (lower_ok avail (t_ratio t) i INV R) as (L1 & T & L3).
      set (i' := lower_band avail band (t_ratio t) i) in *. destruct INV as (LI & INV).
      assert (CL : cum avail i' <= cum avail i).
      { destruct INV as [INV|(Z & j & -> & INV)]; [now apply cum_tidy|].
        destruct (Nat.eq_dec i' (Datatypes.S j)) as [->|]; [lia|]. cbn [cum]. pose proof (proj2 (cum_tidy avail j INV) i' ltac:(lia)). lia. }
      assert (PUT : forall avail' out, INVB avail' i' -> out = select_bands n band avail' i' l -> static_cost n t + cum avail' i' <= cum avail i' ->
                exists iv, bands_run 0 0 (rev (t :: out)) = Some (iv, size_of n (t :: out)) /\ iv <= N.of_nat i /\ size_of n (t :: out) <= cum avail i).
      { intros avail' out INV' -> CU. destruct (IH avail' i' INV') as (iv & B & I1 & I2). cbn [rev]. rewrite bands_run_app, B. cbn [bands_run]. cbv zeta.
        set (out := select_bands n band avail' i' l) in *.
        assert (SZ : size_of n (t :: out) = size_of n out + static_cost n t) by (unfold size_of; cbn [map nsum fold_right]; unfold nsum; lia).
        assert (TO : size_of n out + static_cost n t <= upto (N.of_nat i' + 1)) by (pose proof (proj1 (cum_tidy avail i' T)); lia).
        pose proof (skip_le (length (p_bands P)) _ iv (N.of_nat i') I1 TO) as SK. set (iv' := skip_bands _ _ _ _ _) in *.
        destruct (nth_error (p_bands P) (N.to_nat iv')) as [m|] eqn:NE.
        2:{ apply nth_error_None in NE. lia. }
        assert (nth (N.to_nat iv') (p_bands P) 0 = m) by (now apply nth_error_nth).
        pose proof (rising (N.to_nat iv') i' ltac:(lia)). destruct (N.ltb_spec (t_ratio t) (m * 1024)); [nia|].
        exists iv'. rewrite SZ. split; auto. lia. }
      destruct (N.ltb_spec (avail (N.of_nat i')) (static_cost n t)) as [LT|GE].
      + destruct i' as [|j] eqn:Ei.
        * destruct (IH avail O) as (iv & B & I1 & I2).
          { split; [lia|]. now left. }
          exists iv. cbn [cum] in *. split; auto. lia.
        * set (a := avail (N.of_nat (Datatypes.S j))) in *. set (c := static_cost n t) in *.
          assert (Aj : avail (N.of_nat j) = band_size S K (N.of_nat j)) by (apply (proj1 T); lia).
          pose proof (band_size_min (N.of_nat j)) as BM. assert (JK : N.of_nat j < K) by (unfold K; lia). pose proof (band_size_64 _ JK) as B64.
          assert (SU : sub64 (avail (N.of_nat j)) (c - a) = avail (N.of_nat j) - (c - a)).
          { unfold sub64. rewrite Aj. replace (band_size S K (N.of_nat j) + 2 ^ 64 - (c - a)) with ((band_size S K (N.of_nat j) - (c - a)) + 1 * 2 ^ 64) by lia.
            rewrite N.mod_add by discriminate. apply N.mod_small. lia. }
          rewrite SU. set (avail' := set_avail (set_avail avail (N.of_nat j) (avail (N.of_nat j) - (c - a))) (N.of_nat (Datatypes.S j)) 0).
          assert (AV : forall k, avail' k = if k =? N.of_nat (Datatypes.S j) then 0 else if k =? N.of_nat j then avail (N.of_nat j) - (c - a) else avail k) by reflexivity.
          apply (PUT avail'); auto.
          -- split; [lia|]. right. split; [now rewrite AV, N.eqb_refl|]. exists j. split; auto. split.
             ++ intros k Lk. rewrite AV. destruct (N.eqb_spec k (N.of_nat (Datatypes.S j))); [lia|]. destruct (N.eqb_spec k (N.of_nat j)); [lia|]. apply (proj1 T). lia.
             ++ rewrite AV. destruct (N.eqb_spec (N.of_nat j) (N.of_nat (Datatypes.S j))); [lia|]. rewrite N.eqb_refl, Aj. lia.
          -- cbn [cum]. rewrite (AV (N.of_nat (Datatypes.S j))), N.eqb_refl. fold a.
             assert (LE : c - a <= avail (N.of_nat j)) by (rewrite Aj; lia).
             assert (CJ : cum avail' j + (c - a) = cum avail j).
             { clearbody a c. destruct j as [|j]; cbn [cum].
               - rewrite AV. change (0 =? N.of_nat 1) with false. change (0 =? N.of_nat 0) with true. change (N.of_nat 0) with 0 in LE |- *. cbv iota. clear - LE. lia.
               - rewrite AV. destruct (N.eqb_spec (N.of_nat (Datatypes.S j)) (N.of_nat (Datatypes.S (Datatypes.S j)))); [lia|]. rewrite N.eqb_refl.
                 rewrite (cum_ext avail' avail) by (intros k Lk; rewrite AV; destruct (N.eqb_spec k (N.of_nat (Datatypes.S (Datatypes.S j)))); [lia|]; destruct (N.eqb_spec k (N.of_nat (Datatypes.S j))); [lia|auto]).
                 lia. }
             lia.
      + set (avail' := set_avail avail (N.of_nat i') (avail (N.of_nat i') - static_cost n t)).
        assert (AV : forall k, avail' k = if k =? N.of_nat i' then avail (N.of_nat i') - static_cost n t else avail k) by reflexivity.
        apply (PUT avail'); auto.
        * split; [lia|]. left. split.
          -- intros k Lk. rewrite AV. destruct (N.eqb_spec k (N.of_nat i')); [lia|]. apply (proj1 T). lia.
          -- rewrite AV, N.eqb_refl. destruct T as (_ & T2). lia.
        * destruct i' as [|j]; cbn [cum].
          -- rewrite AV. change (0 =? N.of_nat 0) with true. change (N.of_nat 0) with 0 in *. cbv iota. lia.
          -- rewrite AV, N.eqb_refl. rewrite (cum_ext avail' avail) by (intros k Lk; rewrite AV; destruct (N.eqb_spec k (N.of_nat (Datatypes.S j))); [lia|auto]).
             lia.
  Qed.
  Lemma choose_bands_ok l : Forall (fun t => 1024 <= t_ratio t /\ static_cost n t <= S / K) l -> bands_ok n P (choose_bands n P l) = true.
  Proof.
    intros F. unfold bands_ok, choose_bands. rewrite !nonempty_match by auto. rewrite bands_run_check. cbv zeta.
    destruct (select_bands_ok l F (fun i => band_size S K i) (length (p_bands P) - 1)) as (iv & H & _).
    { pose proof (nonempty_length _ some). split; [lia|]. left. split; auto. lia. }
    unfold band, S, K in *. now rewrite H.
  Qed.
End BANDS.

(** ** the whole choice *)
Definition bands_config (n : node) (P : rules) : Prop :=
  p_max_size P < 2 ^ 64 /\
  (forall i j, (i <= j < length (p_bands P))%nat -> nth i (p_bands P) 0 <= nth j (p_bands P) 0) /\ nth 0 (p_bands P) 0 <= 1 /\
  (p_bands P <> [] -> n_max_cost n <= p_max_size P / N.of_nat (length (p_bands P))).
Lemma validate_static n bk t bal r w : backend_ok bk -> 0 < n_fee_exec n -> t_result t = None -> validate n bk t bal = VDone r w ->
  1024 <= t_ratio t /\ static_cost n (update r t) <= n_max_cost n /\ t_sender t <> None.
Proof.
  intros B F TR V. pose proof (validate_ok n bk B F t bal r w V) as X.
  assert (H : 1024 <= t_ratio t /\ static_cost n t <= n_max_cost n).
  { unfold validate in V. destruct (t_valid t && (1024 <=? t_ratio t)) eqn:E1; [|discriminate]. apply andb_prop in E1. destruct E1 as (_ & E1).
    apply N.leb_le in E1. destruct (N.ltb_spec (n_max_cost n) (static_cost n t)); [discriminate|]. auto. }
  destruct H as (H1 & H2). split; auto. split; [|destruct (ex_fee _ _ _ _ _ _ X) as (s & f & -> & _); discriminate].
  destruct (rs_fail r) eqn:RF.
  - destruct (ex_none _ _ _ _ _ _ X RF) as (E1 & E2). unfold static_cost in *. cbn [update t_base t_result]. rewrite TR in H2.
    rewrite E1, E2. change (io_cost n [] []) with 0. lia.
  - destruct (ex_cost _ _ _ _ _ _ X) as (E1 & E2). specialize (E2 RF). lia.
Qed.
Lemma execute_props n d bal l : backend_ok (backend_of (SDb d)) -> 0 < n_fee_exec n -> forall r, ram_ok r ->
  Forall (fun t => 1024 <= t_ratio t /\ static_cost n t <= n_max_cost n /\ t_sender t <> None /\ t_result t <> None) (execute_txs n bal l (SCache r (SDb d))).
Proof.
  intros B F. induction l as [|t l IH]; intros r O; cbn [execute_txs]; [constructor|].
  destruct (validate _ _ _ _) as [| |r0 w| |] eqn:V; try (apply IH; auto).
  pose proof (validate_ok n _ (backend_cache r d O B) F _ _ _ _ V) as X.
  destruct (commit_tx w (SCache r (SDb d))) as [s1|] eqn:C; [|apply IH; auto].
  assert (ST : exists r1, s1 = SCache r1 (SDb d) /\ ram_ok r1).
  { destruct w as [w|]; cbn [commit_tx] in C.
    - destruct (commit_ram _ _ _ _ C) as (r1 & -> & O1 & _). exists r1. split; auto. apply O1; auto. now destruct (ex_world _ _ _ _ _ _ X w eq_refl).
    - injection C as <-. eauto. }
  destruct ST as (r1 & -> & O1). constructor; [|apply IH; auto].
  destruct (validate_static n _ (reset_tx t) _ _ _ (backend_cache r d O B) F (eq_refl _) V) as (V1 & V2 & V3).
  split; [exact V1|]. split; [exact V2|]. split; [exact V3|]. discriminate.
Qed.
Theorem choose_ok n P d pool : backend_ok (backend_of (SDb d)) -> 0 < n_fee_exec n -> bands_config n P ->
  NoDup (map (fun e => t_id (fst e)) pool) -> StronglySorted (fun e e' => t_ratio (fst e') <= t_ratio (fst e)) pool ->
  let l := choose n P d pool in
  size_of n l <= p_max_size P /\ cost_of l <= p_max_cost P /\ check_txs [] None (d_bal d) l = true /\ bands_ok n P l = true.
Proof.
  intros B F (C1 & C2 & C3 & C4) ND SS. cbv zeta. unfold choose.
  set (l0 := select_cost _ _ pool). set (l1 := execute_txs _ _ _ _). set (l2 := select_final _ _ _ _ _ _).
  pose proof (choose_bands_sub n P l2) as S3. pose proof (select_final_sub n P l1 0 0 (d_bal d)) as S2. fold l2 in S2.
  assert (SK : sub (map key (choose_bands n P l2)) (map (fun e => key (fst e)) pool)).
  { eapply sub_trans; [apply sub_map; exact S3|]. eapply sub_trans; [apply sub_map; exact S2|].
    eapply sub_trans; [apply execute_sub|]. apply select_cost_sub. }
  pose proof (execute_props n d (d_bal d) l0 B F ram_empty ram_empty_ok') as PR. fold (block_storage d) in PR. fold l1 in PR.
  rewrite Forall_forall in PR.
  split; [|split; [|split]].
  - eapply N.le_trans; [apply (sub_sum (static_cost n)); exact S3|]. pose proof (select_final_size n P l1 0 0 (d_bal d) ltac:(lia)) as H. exact H.
  - eapply N.le_trans; [apply (sub_sum (fun t => rs_cost (res t))); exact S3|]. pose proof (select_final_cost n P l1 0 0 (d_bal d) ltac:(lia)) as H. exact H.
  - apply check_txs_ok'.
    + apply (sub_map fst) in SK. rewrite !map_map in SK. eapply sub_nodup; [exact SK|]. exact ND.
    + intros t _ [].
    + apply (sub_map snd) in SK. rewrite !map_map in SK. cbn [key snd] in SK.
      assert (SG : StronglySorted (fun a b => b <= a) (map (fun e : tx * N => t_ratio (fst e)) pool)).
      { clear -SS. induction SS as [|e l SS IH FA]; cbn; constructor; auto. rewrite Forall_forall in *. intros x I. apply in_map_iff in I.
        destruct I as (y & <- & I). now apply FA. }
      pose proof (sub_sorted _ _ _ SK SG) as SR. clear -SR. induction (choose_bands n P l2) as [|t l IH]; constructor.
      * apply IH. now inversion SR.
      * inversion SR as [|? ? H1 H2]; subst. rewrite Forall_forall in *. intros x I. apply H2. now apply in_map.
    + intros x t [=].
    + apply Forall_forall. intros t I. apply (sub_in _ _ _ S3) in I. apply (sub_in _ _ _ S2) in I. destruct (PR t I) as (_ & _ & R). exact R.
    + eapply funded_sub; [exact S3|]. apply select_final_funded.
  - destruct (p_bands P) as [|m ms] eqn:EB; [unfold bands_ok; now rewrite EB|].
    apply choose_bands_ok; auto; try rewrite EB; auto; try discriminate. apply Forall_forall. intros t I.
    apply (sub_in _ _ _ S2) in I. destruct (PR t I) as (R1 & R2 & _). split; auto. rewrite <- EB in *. specialize (C4 ltac:(rewrite EB; discriminate)). lia.
Qed.
