(** Proofs for ReorgModel.v *)
Require Import List Arith NArith Bool Lia.
Import ListNotations.
From Verif Require Import DbSpec ReorgModel ReorgSpec.
Open Scope N_scope.

(** ** versioned tables *)
Section TAB.
  Context {A B : Type}.
  Definition low (n : N) (a : @spec A B) := a_cur a = n /\ Forall (fun w => wver w < n) (a_writes a).
  Definition grow (n : N) (a a' : @spec A B) := a_cur a' = n + 1 /\ exists W, a_writes a' = a_writes a ++ W /\ Forall (fun w => wver w = n) W.
  Lemma drop_all n (l : list (@write A B)) : Forall (fun w => wver w < n) l -> drop_from n l = l.
  Proof. unfold drop_from. induction 1 as [|x l H _ IH]; cbn; auto. destruct (N.ltb_spec (wver x) n); [now f_equal|lia]. Qed.
  Lemma drop_none n m (l : list (@write A B)) : m <= n -> Forall (fun w => wver w = n) l -> drop_from m l = [].
  Proof. intros L. unfold drop_from. induction 1 as [|x l H _ IH]; cbn; auto. destruct (N.ltb_spec (wver x) m); [lia|auto]. Qed.
  Lemma revert_same n m a : low n a -> n <= m -> a_revert m a = a.
  Proof.
    intros (C & F) L. unfold a_revert. destruct (N.ltb_spec (a_cur a) m); auto. assert (n = m) by lia. subst m. rewrite drop_all; auto.
    destruct a; cbn in *; congruence.
  Qed.
  Lemma revert_grow n m a a' : low n a -> grow n a a' -> m <= n -> a_revert m a' = a_revert m a.
  Proof.
    intros (C & F) (C' & W & E & FW) L. unfold a_revert. rewrite C, C'. destruct (N.ltb_spec (n + 1) m); [lia|]. destruct (N.ltb_spec n m); [lia|].
    f_equal. rewrite E. unfold drop_from. rewrite filter_app. fold (drop_from m W). rewrite (drop_none n m W); auto. now rewrite app_nil_r.
  Qed.
  Lemma grow_low n a a' : low n a -> grow n a a' -> low (n + 1) a'.
  Proof.
    intros (C & F) (C' & W & E & FW). split; auto. rewrite E. apply Forall_app. split; eapply Forall_impl; try eassumption; cbn; intros; lia.
  Qed.
  Lemma commit_grow n a W : n + 1 < 4294967295 -> a_cur a = n -> Forall (fun w => wver w = n) W -> grow n a (a_commit (n + 1) (mk_spec n (a_writes a ++ W))).
  Proof.
    intros H E F. unfold a_commit. cbn [a_cur a_writes]. destruct (N.eqb_spec (n + 1) 4294967295); [lia|]. destruct (N.leb_spec (n + 1) n); [lia|].
    split; cbn; auto. exists W. auto.
  Qed.
  Lemma inserts_writes l : forall a : @spec A B, fold_left (fun a e => a_insert (fst e) (snd e) a) l a =
    mk_spec (a_cur a) (a_writes a ++ map (fun e => ((fst e, a_cur a), snd e)) l).
  Proof.
    induction l as [|e l IH]; intros a; cbn [fold_left map].
    - rewrite app_nil_r. now destruct a.
    - rewrite IH. unfold a_insert. cbn. now rewrite <- app_assoc.
  Qed.
End TAB.

(** ** ranking *)
Lemma rank_up k k' r : rank_of k (count_up k' r) = rank_of k r + (if k' =? k then 1 else 0).
Proof.
  induction r as [|(a, c) r IH]; cbn.
  - destruct (k' =? k); reflexivity.
  - destruct (N.eqb_spec a k'); cbn.
    + destruct (N.eqb_spec a k); destruct (N.eqb_spec k' k); try congruence; lia.
    + destruct (N.eqb_spec a k); auto. destruct (N.eqb_spec k' k); try congruence; lia.
Qed.
Lemma rank_down k k' r : rank_of k (count_down k' r) = rank_of k r - (if k' =? k then 1 else 0).
Proof.
  induction r as [|(a, c) r IH]; cbn.
  - destruct (k' =? k); reflexivity.
  - destruct (N.eqb_spec a k'); cbn.
    + destruct (N.eqb_spec a k); destruct (N.eqb_spec k' k); try congruence; lia.
    + destruct (N.eqb_spec a k); auto. destruct (N.eqb_spec k' k); try congruence; lia.
Qed.

(** ** the top of a chain *)
Definition cut {A} (h : N) (ch : list A) : list A := skipn (length ch - N.to_nat h) ch.
Lemma cut_all {A} h (ch : list A) : N.of_nat (length ch) <= h -> cut h ch = ch.
Proof. intros L. unfold cut. replace (length ch - N.to_nat h)%nat with 0%nat by lia. reflexivity. Qed.
Lemma cut_cons {A} h (b : A) ch : h <= N.of_nat (length ch) -> cut h (b :: ch) = cut h ch.
Proof.
  intros L. unfold cut. cbn [length]. replace (S (length ch) - N.to_nat h)%nat with (S (length ch - N.to_nat h)) by lia. reflexivity.
Qed.
Lemma cut_incl {A} h (ch : list A) : incl (cut h ch) ch.
Proof. intros x I. unfold cut in I. rewrite <- (firstn_skipn (length ch - N.to_nat h) ch). apply in_app_iff. auto. Qed.
Lemma cut_length {A} h (ch : list A) : h <= N.of_nat (length ch) -> N.of_nat (length (cut h ch)) = h.
Proof. intros L. unfold cut. rewrite skipn_length. lia. Qed.
Lemma cut_suffix {A} h (ch : list A) : exists l, ch = l ++ cut h ch.
Proof. exists (firstn (length ch - N.to_nat h) ch). unfold cut. now rewrite firstn_skipn. Qed.

Lemma max_keys l : forall k m, k <= m -> Forall (fun x => x <= m) l -> (k = m \/ In m l) -> fold_left N.max l k = m.
Proof.
  induction l as [|x l IH]; intros k m L F O; cbn.
  - destruct O as [O|[]]; auto.
  - inversion F as [|? ? F1 F2]; subst. apply IH; auto; [lia|]. destruct O as [O|[O|O]]; auto; left; lia.
Qed.

Section REORG.
  Context {K V C : Type} (K_eqb : K -> K -> bool).
  Variable valid : view K V -> block -> option C.
  Variable effects : view K V -> block -> option C -> list (K * V).
  Variable genesis : block.
  Variable commit_delay : N.
  Variable U : block -> Prop.
  Hypothesis GOOD : good_blocks U genesis.

  Notation scratch := (scratch K_eqb valid effects).
  Notation chain := (chain K_eqb valid effects genesis).
  Notation the_view := (the_view K V K_eqb).
  Notation apply_db := (apply_db K V C K_eqb effects).
  Notation revert_db := (revert_db K V).
  Notation db := (db K V).
  Notation node := (node K V C).
  Notation fork := (fork C).

  Lemma Uinj a b : U a -> U b -> b_hash a = b_hash b -> a = b. Proof. apply GOOD. Qed.
  Lemma Unz a : U a -> b_hash a <> 0. Proof. apply GOOD. Qed.
  Lemma Uh a : U a -> b_height a + 1 < 4294967295. Proof. apply GOOD. Qed.

  Definition uchain (ch : list block) := chain ch /\ Forall U ch.
  Definition ctx_for (ch : list block) (b : block) : option C := match ch with [] => None | _ => valid (the_view (scratch ch)) b end.

  Lemma uchain_tail b ch : uchain (b :: ch) -> uchain ch.
  Proof. intros ((_ & X) & F). split; auto. now inversion F. Qed.
  Lemma uchain_suffix l ch : uchain (l ++ ch) -> uchain ch.
  Proof. induction l as [|b l IH]; cbn; auto. intros X. apply IH, (uchain_tail b), X. Qed.
  Lemma uchain_cut h ch : uchain ch -> uchain (cut h ch).
  Proof. destruct (cut_suffix h ch) as (l & E). intros X. rewrite E in X. apply uchain_suffix in X. exact X. Qed.
  Lemma head_height b ch : uchain (b :: ch) -> b_height b = N.of_nat (length ch).
  Proof.
    revert b. induction ch as [|p ch IH]; intros b X.
    - destruct X as ((-> & _) & _). cbn. apply GOOD.
    - pose proof (IH p (uchain_tail _ _ X)) as E. destruct X as (((_ & H & _) & _) & _). rewrite H, E. cbn [length]. lia.
  Qed.
  Lemma height_in b ch : uchain ch -> In b ch -> b_height b < N.of_nat (length ch).
  Proof.
    induction ch as [|p ch IH]; intros X [].
    - subst. rewrite (head_height _ _ X). cbn [length]. lia.
    - specialize (IH (uchain_tail _ _ X) H). cbn [length]. lia.
  Qed.
  Lemma chain_nodup ch : uchain ch -> NoDup ch.
  Proof.
    induction ch as [|b ch IH]; intros X; constructor; [|apply IH, (uchain_tail _ _ X)]. intros I.
    pose proof (height_in _ _ (uchain_tail _ _ X) I). rewrite (head_height _ _ X) in H. lia.
  Qed.
  Lemma chain_same ch : forall ch', uchain ch -> uchain ch' -> top_hash ch = top_hash ch' -> ch = ch'.
  Proof.
    induction ch as [|b ch IH]; intros [|b' ch'] X Y E; auto.
    - destruct Y as (_ & F). inversion F as [|? ? F1 F2]; subst. cbn in E. pose proof (Unz _ F1). congruence.
    - destruct X as (_ & F). inversion F as [|? ? F1 F2]; subst. cbn in E. pose proof (Unz _ F1). congruence.
    - cbn in E. assert (b = b').
      { destruct X as (_ & F), Y as (_ & F'). inversion F; inversion F'; subst. apply Uinj; auto. }
      subst b'. f_equal. pose proof (head_height _ _ X) as HX. pose proof (head_height _ _ Y) as HY. rewrite HX in HY.
      apply IH; [eapply uchain_tail; eauto|eapply uchain_tail; eauto|].
      destruct ch as [|p ch], ch' as [|p' ch']; cbn [length] in HY; try lia; auto.
      destruct X as (((P & _) & _) & _), Y as (((P' & _) & _) & _). cbn. congruence.
  Qed.

  (** ** the tables of a chain *)
  Definition lows (n : N) (d : db) := low n (d_map _ _ d) /\ low n (d_farm _ _ d) /\ low n (d_tab _ _ d).
  Definition grows (n : N) (d d' : db) := grow n (d_map _ _ d) (d_map _ _ d') /\ grow n (d_farm _ _ d) (d_farm _ _ d') /\ grow n (d_tab _ _ d) (d_tab _ _ d').
  Lemma apply_grows b c d : lows (b_height b) d -> b_height b + 1 < 4294967295 -> grows (b_height b) d (apply_db b c d).
  Proof.
    intros ((C1 & F1) & (C2 & F2) & (C3 & F3)) H. unfold ReorgModel.apply_db. split; [|split]; cbn [d_map d_farm d_tab].
    - unfold a_insert. rewrite C1. apply commit_grow; auto.
    - destruct (N.eqb_spec (b_height b) 0).
      + pose proof (commit_grow (b_height b) (d_farm _ _ d) [] H C2 (Forall_nil _)) as X. rewrite app_nil_r in X. destruct (d_farm _ _ d); cbn in *. now rewrite C2.
      + unfold a_insert. rewrite C2. apply commit_grow; auto.
    - rewrite inserts_writes, C3. apply commit_grow; auto. apply Forall_forall. intros w I. apply in_map_iff in I. destruct I as (e & <- & _). reflexivity.
  Qed.
  Lemma scratch_lows ch : uchain ch -> lows (N.of_nat (length ch)) (scratch ch).
  Proof.
    induction ch as [|b ch IH]; intros X.
    - repeat split; constructor.
    - specialize (IH (uchain_tail _ _ X)). pose proof (head_height _ _ X) as H. rewrite <- H in IH.
      assert (HU : b_height b + 1 < 4294967295) by (apply Uh; destruct X as (_ & F); now inversion F).
      cbn [ReorgSpec.scratch]. match goal with |- lows _ (ReorgModel.apply_db _ _ _ _ _ ?b ?c ?d) => pose proof (apply_grows b c d IH HU) as (G1 & G2 & G3) end.
      replace (N.of_nat (length (b :: ch))) with (b_height b + 1) by (cbn [length]; lia).
      destruct IH as (L1 & L2 & L3). repeat split; eapply grow_low; eauto.
  Qed.
  Lemma scratch_revert h ch : uchain ch -> revert_db h (scratch ch) = scratch (cut h ch).
  Proof.
    induction ch as [|b ch IH]; intros X.
    - unfold cut. cbn. unfold ReorgModel.revert_db, db0. cbn. unfold a_revert, a_init. cbn. destruct (0 <? h) eqn:Z; auto.
      assert (h = 0) by (apply N.ltb_ge in Z; lia). subst. reflexivity.
    - pose proof (scratch_lows _ X) as (L1 & L2 & L3). destruct (N.le_gt_cases (N.of_nat (length (b :: ch))) h) as [Z|Z].
      + rewrite cut_all by auto. unfold ReorgModel.revert_db. rewrite (revert_same _ _ _ L1 Z), (revert_same _ _ _ L2 Z), (revert_same _ _ _ L3 Z).
        now destruct (scratch (b :: ch)).
      + assert (Z' : h <= N.of_nat (length ch)) by (cbn [length] in Z; lia). rewrite cut_cons by auto. rewrite <- IH by (eapply uchain_tail; eauto).
        pose proof (scratch_lows _ (uchain_tail _ _ X)) as M. pose proof (head_height _ _ X) as H. rewrite <- H in M, Z'.
        assert (HU : b_height b + 1 < 4294967295) by (apply Uh; destruct X as (_ & F); now inversion F).
        cbn [ReorgSpec.scratch]. match goal with |- ReorgModel.revert_db _ _ _ (ReorgModel.apply_db _ _ _ _ _ ?b ?c ?d) = _ => pose proof (apply_grows b c d M HU) as (G1 & G2 & G3) end.
        destruct M as (M1 & M2 & M3). unfold ReorgModel.revert_db.
        rewrite (revert_grow _ _ _ _ M1 G1 Z'), (revert_grow _ _ _ _ M2 G2 Z'), (revert_grow _ _ _ _ M3 G3 Z'). reflexivity.
  Qed.

  (** height_map and farmer_block_map *)
  Lemma scratch_map ch : uchain ch -> a_writes (d_map _ _ (scratch ch)) = rev (map (fun b => ((b_height b, b_height b), b_hash b)) ch).
  Proof.
    induction ch as [|b ch IH]; intros X; auto. specialize (IH (uchain_tail _ _ X)). pose proof (scratch_lows _ (uchain_tail _ _ X)) as ((L & _) & _).
    pose proof (head_height _ _ X) as H. assert (HU : b_height b + 1 < 4294967295) by (apply Uh; destruct X as (_ & F); now inversion F).
    cbn [ReorgSpec.scratch map rev]. unfold ReorgModel.apply_db. cbn [d_map]. unfold a_commit, a_insert. cbn [a_cur a_writes].
    rewrite L, <- H. destruct (N.eqb_spec (b_height b + 1) 4294967295); [lia|]. destruct (N.leb_spec (b_height b + 1) (b_height b)); [lia|]. cbn. now rewrite IH.
  Qed.
  Lemma scratch_farm ch : uchain ch -> map wkey (a_writes (d_farm _ _ (scratch ch))) = rev (map (fun b => (b_farmer b, b_height b)) (filter (fun b => negb (b_height b =? 0)) ch)).
  Proof.
    induction ch as [|b ch IH]; intros X; auto. specialize (IH (uchain_tail _ _ X)). pose proof (scratch_lows _ (uchain_tail _ _ X)) as (_ & (L & _) & _).
    pose proof (head_height _ _ X) as H. assert (HU : b_height b + 1 < 4294967295) by (apply Uh; destruct X as (_ & F); now inversion F).
    cbn [ReorgSpec.scratch filter]. unfold ReorgModel.apply_db. cbn [d_farm]. unfold a_commit, a_insert.
    destruct (N.eqb_spec (b_height b) 0) as [Z|Z]; cbn [negb].
    - destruct (_ || _); auto.
    - cbn [a_cur a_writes map rev]. rewrite L, <- H. destruct (N.eqb_spec (b_height b + 1) 4294967295); [lia|]. destruct (N.leb_spec (b_height b + 1) (b_height b)); [lia|].
      cbn [orb a_writes]. rewrite map_app. cbn. now rewrite IH.
  Qed.
  Definition at_height (h : N) (ch : list block) : option block := List.find (fun b => b_height b =? h) ch.
  Lemma scratch_hash ch h : uchain ch -> hash_at K V (scratch ch) h = option_map b_hash (at_height h ch).
  Proof.
    intros X. unfold hash_at, a_find. rewrite scratch_map by auto. pose proof (scratch_lows _ X) as ((L & _) & _). rewrite L.
    assert (B : forall b, In b ch -> b_height b <= N.of_nat (length ch)) by (intros b I; pose proof (height_in _ _ X I); lia).
    revert B. generalize (N.of_nat (length ch)) as m. clear. intros m. induction ch as [|b ch IH]; intros B; auto.
    cbn [map rev]. rewrite fold_left_app. cbn [fold_left]. unfold at_height. cbn [List.find]. unfold wkey, wver, wval. cbn [fst snd].
    destruct (b_height b =? h); cbn.
    - destruct (N.leb_spec (b_height b) m); auto. specialize (B b (or_introl eq_refl)). lia.
    - apply IH. intros b' I. apply B. cbn; auto.
  Qed.
  Lemma at_height_in h ch b : at_height h ch = Some b -> In b ch /\ b_height b = h.
  Proof. intros E. apply find_some in E. destruct E as (I & E). apply N.eqb_eq in E. auto. Qed.
  Lemma in_at_height b ch : uchain ch -> In b ch -> at_height (b_height b) ch = Some b.
  Proof.
    induction ch as [|p ch IH]; intros X []; unfold at_height in *; cbn [List.find].
    - subst. now rewrite N.eqb_refl.
    - pose proof (height_in _ _ (uchain_tail _ _ X) H). rewrite (head_height _ _ X). destruct (N.eqb_spec (N.of_nat (length ch)) (b_height b)); [lia|].
      apply IH; auto. eapply uchain_tail; eauto.
  Qed.
  Lemma all_heights h ch : uchain ch -> h < N.of_nat (length ch) -> exists b, at_height h ch = Some b.
  Proof.
    induction ch as [|p ch IH]; intros X L; [cbn in L; lia|]. unfold at_height. cbn [List.find]. rewrite (head_height _ _ X).
    destruct (N.eqb_spec (N.of_nat (length ch)) h); eauto. apply IH; [eapply uchain_tail; eauto|cbn [length] in L; lia].
  Qed.
  Lemma scratch_last ch : uchain ch -> find_last K V (scratch ch) = match ch with [] => None | b :: _ => Some (b_height b, b_hash b) end.
  Proof.
    intros X. unfold find_last. rewrite scratch_map by auto. rewrite map_rev, map_map. cbn [wkey fst].
    destruct ch as [|b ch]; auto. 
    assert (M : forall l k, rev (map b_height (b :: ch)) = k :: l -> fold_left N.max l k = b_height b).
    { intros l k E. assert (A : forall x, In x (k :: l) -> x <= b_height b).
      { intros x I. rewrite <- E in I. apply in_rev in I. apply in_map_iff in I. destruct I as (y & <- & I). pose proof (height_in _ _ X I). rewrite (head_height _ _ X). cbn [length] in H. lia. }
      assert (I : In (b_height b) (k :: l)) by (rewrite <- E; apply in_rev; rewrite rev_involutive; cbn; auto).
      apply max_keys; [apply A; cbn; auto|apply Forall_forall; intros x J; apply A; cbn; auto|]. destruct I; auto. }
    destruct (rev _) as [|k l] eqn:E.
    - apply (f_equal (@length _)) in E. rewrite rev_length, map_length in E. cbn in E. discriminate.
    - rewrite (M _ _ eq_refl). rewrite scratch_hash by auto. rewrite (in_at_height b) by (cbn; auto). reflexivity.
  Qed.
  Lemma scratch_rank ch k : uchain ch -> rank_of k (recount K V (scratch ch)) = blocks_by k ch.
  Proof.
    intros X. unfold recount. rewrite scratch_farm by auto. rewrite nodup_fixed_point.
    - clear. induction ch as [|b ch IH]; auto. cbn [filter blocks_by]. destruct (b_height b =? 0); cbn [negb andb]; [rewrite IH; lia|].
      cbn [map rev]. rewrite fold_left_app. cbn [fold_left fst]. rewrite rank_up, IH. lia.
    - apply NoDup_rev. assert (N : forall l, uchain ch -> incl l ch -> NoDup l -> NoDup (map (fun b => (b_farmer b, b_height b)) l)).
      { induction l as [|x l IHl]; intros _ I ND; cbn; constructor.
        - intros J. apply in_map_iff in J. destruct J as (y & E & J). inversion E. inversion ND; subst. apply H3.
          assert (x = y); [|congruence]. pose proof (in_at_height x ch X (I x (or_introl eq_refl))). pose proof (in_at_height y ch X (I y (or_intror J))). congruence.
        - apply IHl; auto; [intros y J; apply I; cbn; auto|now inversion ND]. }
      apply N; auto; [intros x I; apply filter_In in I; apply I|]. apply NoDup_filter, chain_nodup, X.
  Qed.
End REORG.
