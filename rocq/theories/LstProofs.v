Require Import List Arith NArith ZArith Bool Lia Sorted.
From Verif Require Import BytesLib OrdLib EngineModel EngineUpper HistModel HistProofs OfqModel FrkProofs LstModel LstSpec.
Import List ListNotations.
Open Scope N_scope.

Definition lt2 (x y : N * N) : Prop := fst x < fst y \/ (fst x = fst y /\ snd x < snd y).
Definition le2 (x y : N * N) : Prop := x = y \/ lt2 x y.
Lemma lt2_le2 x y z : lt2 x y -> le2 y z -> lt2 x z.
Proof. unfold lt2, le2. intros H [<-|H2]; [exact H|]. unfold lt2 in H2. lia. Qed.

Section LOG.
  Context {V : Type}.
  (** a row with its place in the chain first *)
  Definition ent : Type := (N * N) * (addr * V).
  Definition row_of (x : ent) : key * V := (((fst (snd x), fst (fst x)), snd (fst x)), snd (snd x)).
  Definition good (T : list (key * V)) (L : list ent) : Prop :=
    asorted key_cmp T /\ (forall r, In r T <-> In r (map row_of L)) /\ StronglySorted (fun x y => lt2 (fst x) (fst y)) L.
  Definition below (L : list ent) (p : N * N) : Prop := forall x, In x L -> lt2 (fst x) p.
  Definition vals (L : list ent) (a : addr) : list V := map (fun x => snd (snd x)) (filter (fun x => addr_eqb (fst (snd x)) a) L).
  Definition P (T : list (key * V)) (p : N * N) (f : addr -> list V) : Prop := exists L, good T L /\ below L p /\ forall a, vals L a = f a.
  Definition adds (o : option addr) (v : V) (a : addr) : list V := match o with Some b => if addr_eqb b a then [v] else [] | None => [] end.

  Lemma row_eq x y : row_of x = row_of y -> x = y.
  Proof. destruct x as [[h t] [a v]], y as [[h' t'] [a' v']]. unfold row_of. cbn. intros [= -> -> -> ->]. reflexivity. Qed.
  Lemma good_add T L a h t v : good T L -> below L (h, t) -> good (aset key_cmp ((a, h), t) v T) (L ++ [((h, t), (a, v))]).
  Proof.
    intros (SO & EQ & SL) B. split; [apply (aset_sorted KT), SO|]. split.
    - intros (k, w). rewrite (aset_In KT) by exact SO. rewrite map_app, in_app_iff. cbn [map In]. rewrite <- EQ. change (row_of (h, t, (a, v))) with (((a, h), t), v). split.
      + intros [(-> & ->) | (H & H')]; [right; left; reflexivity | left; tauto].
      + intros [H | [[= <- <-] | []]]; [|left; auto]. right.
        assert (NE : k <> ((a, h), t)).
        { intros ->. apply EQ in H. apply in_map_iff in H. destruct H as ([[h' t'] [a' v']] & E & H). unfold row_of in E. cbn in E. injection E as -> -> -> ->. apply B in H. unfold lt2 in H. cbn in H. lia. }
        split; auto.
    - clear SO EQ. induction SL as [|x L SL IH F]; cbn [app]; [repeat constructor|]. constructor; [apply IH; intros y Hy; apply B; right; exact Hy|].
      apply Forall_app. split; [exact F|]. constructor; [|constructor]. apply B. left. reflexivity.
  Qed.
  Lemma vals_app L L' a : vals (L ++ L') a = vals L a ++ vals L' a.
  Proof. unfold vals. rewrite filter_app, map_app. reflexivity. Qed.
  Lemma P_step T h c f o v : P T (h, c) f -> P (put_row o h c v T) (h, c + 1) (fun a => f a ++ adds o v a).
  Proof.
    intros (L & G & B & E). destruct o as [b|]; cbn [put_row adds].
    - exists (L ++ [((h, c), (b, v))]). split; [apply good_add; assumption|]. split.
      + intros x H. apply in_app_iff in H. destruct H as [H|[<-|[]]]; [apply B in H|]; unfold lt2 in *; cbn in *; lia.
      + intros a. rewrite vals_app, E. f_equal. unfold vals. cbn. destruct (addr_eqb b a); reflexivity.
    - exists L. split; [exact G|]. split; [intros x H; apply B in H; unfold lt2 in *; cbn in *; lia|]. intros a. rewrite app_nil_r. apply E.
  Qed.
  Lemma P_mono T p q f : le2 p q -> P T p f -> P T q f.
  Proof. intros LE (L & G & B & E). exists L. split; [exact G|]. split; [|exact E]. intros x H. eapply lt2_le2; [apply B, H | exact LE]. Qed.
  Lemma P_ext T p f g : (forall a, f a = g a) -> P T p f -> P T p g.
  Proof. intros H (L & G & B & E). exists L. split; [exact G|]. split; [exact B|]. intros a. rewrite E. apply H. Qed.
  Lemma P_nil p : P [] p (fun _ => []).
  Proof. exists []. split; [split; [constructor|]; split; [intros r; reflexivity | constructor]|]. split; [intros x []|]. reflexivity. Qed.

  Lemma sorted_rows (T : list (key * V)) : asorted key_cmp T -> StronglySorted (fun x y => klt key_cmp (fst x) (fst y)) T.
  Proof.
    unfold asorted. induction T as [|x T IH]; intros H; [constructor|]. cbn in H. inversion H as [|y l S F]; subst. constructor; [apply IH, S|].
    rewrite Forall_forall in *. intros y Hy. apply F. apply in_map. exact Hy.
  Qed.
  Lemma first_range_filter (T : list (key * V)) lo hi : asorted key_cmp T -> first_range lo hi T = filter (fun r => key_ltb (fst r) hi && negb (key_ltb (fst r) lo)) T.
  Proof.
    intros SO. unfold first_range. assert (Q : forall l : list (key * V), asorted key_cmp l -> take_while (fun r => key_ltb (fst r) hi) l = filter (fun r => key_ltb (fst r) hi) l).
    { induction l as [|x l IH]; intros S; [reflexivity|]. cbn [take_while filter]. apply sorted_rows in S as S'. inversion S' as [|y m S2 F]; subst. destruct (key_ltb (fst x) hi) eqn:E.
      - rewrite IH; [reflexivity|]. destruct x as (k0, v0). apply asorted_cons_inv in S. apply S.
      - symmetry. rewrite Forall_forall in F. clear IH S S' S2. induction l as [|y l IH]; [reflexivity|]. cbn. assert (key_ltb (fst y) hi = false) as ->; [|apply IH; intros; apply F; right; assumption].
        apply key_ltb_false. apply key_ltb_false in E. right. specialize (F y (or_introl eq_refl)). destruct E as [E|E]; [first [rewrite E; exact F | rewrite <- E; exact F] | eapply (klt_trans KT); eauto]. }
    rewrite Q by (apply asorted_filter, SO). rewrite FrkProofs.filter_filter. apply filter_ext. intros r. apply andb_comm.
  Qed.
  Lemma in_range (x : ent) a : lt2 (fst x) (top, top) ->
    key_ltb (fst (row_of x)) ((a, top), top) && negb (key_ltb (fst (row_of x)) ((a, 0), 0)) = addr_eqb (fst (snd x)) a.
  Proof.
    destruct x as [[h t] [b v]]. unfold lt2, row_of. cbn [fst snd]. intros H. assert (HT : 0 < top) by reflexivity. unfold key_ltb, key_cmp, lexcmp. cbn [fst snd]. revert H HT. generalize top. intros T H HT.
    destruct (bytescmp b a) eqn:E.
    - apply (tc_eq bytescmp_total) in E. subst. destruct (addr_eqb_spec a a) as [_|]; [|congruence].
      destruct (N.compare_spec h T); try lia; destruct (N.compare_spec h 0); try lia; cbn;
        repeat match goal with |- context [N.compare ?x ?y] => destruct (N.compare_spec x y); try lia end; reflexivity.
    - destruct (addr_eqb_spec b a) as [->|_]; [rewrite (proj2 (tc_eq bytescmp_total a a) eq_refl) in E; discriminate | reflexivity].
    - destruct (addr_eqb_spec b a) as [->|_]; [rewrite (proj2 (tc_eq bytescmp_total a a) eq_refl) in E; discriminate | reflexivity].
  Qed.
  Lemma range_rows T L a : good T L -> below L (top, top) ->
    filter (fun r => key_ltb (fst r) ((a, top), top) && negb (key_ltb (fst r) ((a, 0), 0))) T = map row_of (filter (fun x => addr_eqb (fst (snd x)) a) L).
  Proof.
    intros (SO & EQ & SL) B. apply (ss_unique (fun x y : key * V => klt key_cmp (fst x) (fst y))).
    - intros x y. apply (klt_asym KT).
    - apply ss_filter, sorted_rows, SO.
    - apply (ss_map (fun x y : ent => lt2 (fst x) (fst y))); [|apply ss_filter, SL].
      intros [[h t] [b v]] [[h' t'] [b' v']] H1 H2 LT. apply filter_In in H1, H2. destruct H1 as (_ & H1), H2 as (_ & H2). cbn [fst snd] in *.
      destruct (addr_eqb_spec b a) as [->|]; [|discriminate]. destruct (addr_eqb_spec b' a) as [->|]; [|discriminate].
      unfold klt, row_of, key_cmp, lexcmp. cbn [fst snd]. rewrite (proj2 (tc_eq bytescmp_total a a) eq_refl). unfold lt2 in LT. cbn in LT.
      destruct (N.compare_spec h h'); try lia; [|reflexivity]. destruct (N.compare_spec t t'); try lia. reflexivity.
    - intros r. rewrite filter_In, EQ. split.
      + intros (H & K). apply in_map_iff in H. destruct H as (x & <- & H). apply in_map. apply filter_In. split; [exact H|]. rewrite in_range in K; [exact K | apply B, H].
      + intros H. apply in_map_iff in H. destruct H as (x & <- & H). apply filter_In in H. destruct H as (H & K). split; [apply in_map, H|]. rewrite in_range; [exact K | apply B, H].
  Qed.
  Lemma P_first T p f a : P T p f -> le2 p (top, top) -> map snd (first_range ((a, 0), 0) ((a, top), top) T) = f a.
  Proof.
    intros (L & G & B & E) LE. rewrite first_range_filter by apply G. assert (B' : below L (top, top)) by (intros x H; exact (lt2_le2 _ _ _ (B x H) LE)). rewrite (range_rows T L _ G B').
    rewrite map_map. rewrite <- E. reflexivity.
  Qed.
  Lemma P_last T p f a : P T p f -> le2 p (top, top) -> map snd (last_range ((a, 0), 0) ((a, top), top) T) = rev (f a).
  Proof.
    intros (L & G & B & E) LE. rewrite last_range_filter by apply G. rewrite filter_rev'. assert (B' : below L (top, top)) by (intros x H; exact (lt2_le2 _ _ _ (B x H) LE)). rewrite (range_rows T L _ G B').
    rewrite map_rev, map_map. rewrite <- E. reflexivity.
  Qed.
End LOG.

Section CHAIN.
  Variables (plot_nft offer time_lock escrow pubkey_hash zero_addr : addr).
  Notation type_of := (type_of pubkey_hash).
  Notation arg_owner := (arg_owner plot_nft offer time_lock escrow zero_addr).
  Notation apply_deploy := (apply_deploy plot_nft offer time_lock escrow pubkey_hash zero_addr).
  Notation apply_tx := (apply_tx plot_nft offer time_lock escrow pubkey_hash zero_addr).
  Notation apply_block := (apply_block plot_nft offer time_lock escrow pubkey_hash zero_addr).
  Definition owner_of (c : contract) : option addr := match get_owner c with Some a => Some a | None => arg_owner c end.

  (** what a transaction adds *)
  Definition d_adds (t : tx) (a : addr) : list (addr * addr) := match t_deploy t with Some c => adds (t_sender t) (t_id t, type_of c) a | None => [] end.
  Definition o_adds (t : tx) (a : addr) : list (addr * addr) := match t_deploy t with Some c => adds (owner_of c) (t_id t, type_of c) a | None => [] end.
  Definition op_adds (h : N) (t : tx) (a : addr) (o : op) : list call :=
    if o_exec o then adds (Some (match o_address o with Some b => b | None => t_id t end)) (mk_call h (t_id t) (o_method o) (o_args o) (o_user o) (o_deposit o)) a else [].
  Definition INV (s : tables) (p : N * N) (fd fo : addr -> list (addr * addr)) (fe : addr -> list call) : Prop :=
    P (deploy_map s) p fd /\ P (owner_map s) p fo /\ P (exec_log s) p fe.
  Lemma INV_mono s p q fd fo fe : le2 p q -> INV s p fd fo fe -> INV s q fd fo fe.
  Proof. intros LE (A & B & C). split; [|split]; eapply P_mono; eauto. Qed.
  Lemma INV_ext s p fd fo fe gd go ge : (forall a, fd a = gd a) -> (forall a, fo a = go a) -> (forall a, fe a = ge a) -> INV s p fd fo fe -> INV s p gd go ge.
  Proof. intros A B C (X & Y & Z). split; [|split]; eapply P_ext; eauto. Qed.

  Lemma next_small c : c + 1 < 2 ^ 32 -> next c = c + 1.
  Proof. intros H. unfold next. apply N.mod_small, H. Qed.
  Lemma deploy_step h t s c fd fo fe : INV s (h, c) fd fo fe -> c + 1 < 2 ^ 32 ->
    INV (fst (apply_deploy h t (s, c))) (h, snd (apply_deploy h t (s, c))) (fun a => fd a ++ d_adds t a) (fun a => fo a ++ o_adds t a) fe /\
    snd (apply_deploy h t (s, c)) = c + match t_deploy t with Some _ => 1 | None => 0 end.
  Proof.
    intros I Hc. unfold LstModel.apply_deploy, d_adds, o_adds. destruct (t_deploy t) as [k|]; cbn [fst snd].
    - rewrite next_small by exact Hc. split; [|reflexivity]. destruct I as (A & B & C). split; [|split]; cbn [deploy_map owner_map exec_log].
      + apply P_step, A.
      + unfold owner_of. destruct k as [a0|b args|th]; cbn [get_owner LstModel.arg_owner put_row].
        * apply (P_step _ _ _ _ (Some a0)), B.
        * apply P_step, B.
        * apply (P_step _ _ _ _ None (t_id t, type_of (OtherContract th))), B.
      + eapply P_mono; [|exact C]. right. unfold lt2. cbn. lia.
    - split; [|lia]. eapply INV_ext; [| | |exact I]; intros; rewrite ?app_nil_r; reflexivity.
  Qed.
  Lemma ops_step h t ops : forall s c fd fo fe, INV s (h, c) fd fo fe -> c + N.of_nat (length ops) < 2 ^ 32 ->
    INV (fst (fold_left (apply_op h t) ops (s, c))) (h, snd (fold_left (apply_op h t) ops (s, c))) fd fo (fun a => fe a ++ flat_map (op_adds h t a) ops) /\
    snd (fold_left (apply_op h t) ops (s, c)) = c + N.of_nat (length ops).
  Proof.
    induction ops as [|o ops IH]; intros s c fd fo fe I Hc; cbn [fold_left].
    - split; [|cbn; lia]. eapply INV_ext; [| | |exact I]; intros; cbn; rewrite ?app_nil_r; reflexivity.
    - cbn [length] in Hc. destruct (apply_op h t (s, c) o) as (s', c') eqn:E. unfold apply_op in E. rewrite next_small in E by lia. injection E as <- <-.
      edestruct IH as (A & B); [| |split; [eapply INV_ext; [| | |exact A]|rewrite B; cbn [length]; lia]].
      + instantiate (1 := fun a => fe a ++ op_adds h t a o). instantiate (1 := fo). instantiate (1 := fd). destruct I as (A & B & C). unfold op_adds. destruct (o_exec o).
        * split; [|split]; cbn [deploy_map owner_map exec_log]; [eapply P_mono; [|exact A]; right; unfold lt2; cbn; lia | eapply P_mono; [|exact B]; right; unfold lt2; cbn; lia|].
          apply (P_step _ _ _ _ (Some _)), C.
        * eapply INV_ext; [| | |eapply INV_mono; [|split; [exact A|split; [exact B|exact C]]]]; try (intros; rewrite ?app_nil_r; reflexivity). right. unfold lt2. cbn. lia.
      + lia.
      + reflexivity.
      + reflexivity.
      + intros a. cbn [flat_map]. rewrite app_assoc. reflexivity.
  Qed.
  Definition room (t : tx) : N := (match t_deploy t with Some _ => 1 | None => 0 end) + N.of_nat (length (t_execute t)).
  Lemma tx_step h t s c fd fo fe : INV s (h, c) fd fo fe -> c + room t < 2 ^ 32 ->
    INV (fst (apply_tx h (s, c) t)) (h, snd (apply_tx h (s, c) t)) (fun a => fd a ++ d_adds t a) (fun a => fo a ++ o_adds t a) (fun a => fe a ++ flat_map (op_adds h t a) (t_execute t)) /\
    snd (apply_tx h (s, c) t) = c + room t.
  Proof.
    unfold room. intros I Hc. unfold LstModel.apply_tx. destruct (t_deploy t) as [k|] eqn:ED.
    - pose proof (deploy_step h t s c fd fo fe I ltac:(lia)) as (A & B). rewrite ED in B. destruct (apply_deploy h t (s, c)) as (s', c'). cbn [fst snd] in *. subst c'.
      pose proof (ops_step h t (t_execute t) _ _ _ _ _ A ltac:(lia)) as (C & D). split; [exact C|]. rewrite D. lia.
    - assert (E : apply_deploy h t (s, c) = (s, c)) by (unfold LstModel.apply_deploy; rewrite ED; reflexivity). rewrite E.
      pose proof (ops_step h t (t_execute t) _ _ _ _ _ I ltac:(lia)) as (C & D). split; [|rewrite D; lia].
      eapply INV_ext; [| | |exact C]; intros a; unfold d_adds, o_adds; rewrite ?ED, ?app_nil_r; reflexivity.
  Qed.
  Definition rooms (l : list tx) : N := fold_right (fun t n => room t + n) 0 l.
  Lemma txs_step h l : forall s c fd fo fe, INV s (h, c) fd fo fe -> c + rooms l < 2 ^ 32 ->
    INV (fst (fold_left (apply_tx h) l (s, c))) (h, snd (fold_left (apply_tx h) l (s, c)))
      (fun a => fd a ++ flat_map (fun t => d_adds t a) l) (fun a => fo a ++ flat_map (fun t => o_adds t a) l) (fun a => fe a ++ flat_map (fun t => flat_map (op_adds h t a) (t_execute t)) l).
  Proof.
    induction l as [|t l IH]; intros s c fd fo fe I Hc; cbn [fold_left flat_map].
    - eapply INV_ext; [| | |exact I]; intros; rewrite app_nil_r; reflexivity.
    - cbn [rooms fold_right] in Hc. fold (rooms l) in Hc. destruct (tx_step h t s c fd fo fe I ltac:(lia)) as (A & B). destruct (apply_tx h (s, c) t) as (s', c'). cbn [fst snd] in *. subst c'.
      pose proof (IH _ _ _ _ _ A ltac:(lia)) as C. eapply INV_ext; [| | |exact C]; intros a; cbv beta; rewrite <- app_assoc; reflexivity.
  Qed.
  Lemma rooms_filter f l : rooms (filter f l) <= rooms l.
  Proof. induction l as [|t l IH]; cbn; [lia|]. destruct (f t); cbn; fold (rooms l) in *; fold (rooms (filter f l)) in *; lia. Qed.
  Lemma things_rooms b : things b = b_io b + rooms (b_txs b).
  Proof. unfold things, rooms, room. induction (b_txs b) as [|t l IH]; cbn [fold_right]; lia. Qed.

  Definition live (b : block) : list tx := filter (fun t => negb (t_failed t)) (b_txs b).
  Lemma chain_step chain : forall from s fd fo fe, INV s (from, 0) fd fo fe -> from <= top -> rising from chain ->
    exists p, le2 p (top, top) /\ INV (fold_left apply_block chain s) p
      (fun a => fd a ++ flat_map (fun b => flat_map (fun t => d_adds t a) (live b)) chain) (fun a => fo a ++ flat_map (fun b => flat_map (fun t => o_adds t a) (live b)) chain)
      (fun a => fe a ++ flat_map (fun b => flat_map (fun t => flat_map (op_adds (b_height b) t a) (t_execute t)) (live b)) chain).
  Proof.
    induction chain as [|b chain IH]; intros from s fd fo fe I HF R; cbn [fold_left flat_map].
    - exists (from, 0). split; [right; unfold lt2, top in *; cbn; lia|]. eapply INV_ext; [| | |exact I]; intros; rewrite app_nil_r; reflexivity.
    - cbn [rising] in R. destruct R as (HB & HT & R). rewrite things_rooms in HT. assert (HR := rooms_filter (fun t => negb (t_failed t)) (b_txs b)).
      assert (I1 : INV s (b_height b, b_io b) fd fo fe).
      { eapply INV_mono; [|exact I]. unfold le2, lt2. cbn. destruct (N.eq_dec from (b_height b)) as [->|]; [|right; lia]. destruct (N.eq_dec (b_io b) 0) as [->|]; [left; reflexivity | right; lia]. }
      pose proof (txs_step (b_height b) (live b) s (b_io b) fd fo fe I1 ltac:(unfold live; lia)) as A.
      edestruct (IH (b_height b + 1) (apply_block s b)) as (p & LP & C).
      + unfold LstModel.apply_block. fold (live b). rewrite (N.mod_small (b_io b)) by lia. eapply INV_mono; [|exact A]. right. unfold lt2. cbn. lia.
      + unfold top. lia.
      + exact R.
      + exists p. split; [exact LP|]. eapply INV_ext; [| | |exact C]; intros a; cbv beta; rewrite <- app_assoc; reflexivity.
  Qed.
End CHAIN.
