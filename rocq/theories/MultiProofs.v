(** Proof of C09. *)
Require Import List Sorted NArith Lia Bool Arith.
Require Import Verif.OrdLib Verif.BytesLib Verif.DbModel Verif.DbSpec Verif.DbBlockProofs Verif.DbCrashProofs Verif.DbRefineProofs
  Verif.DbPropsProofs Verif.KeysSpec Verif.DbIterModel Verif.DbIterSpec Verif.DbIterProofs Verif.DbIterMain
  Verif.MultiModel Verif.MultiSpec.
Import ListNotations.
Open Scope N_scope.

Section P.
  Local Notation bytes := (list N).
  Context {K V : Type} (kc : K -> K -> comparison).
  Hypothesis TK : TotalCmp kc.
  Variables (kok : K -> Prop) (write : K * N -> bytes) (read : bytes -> option (K * N)) (imax : N).
  Definition okp (x : K * N) : Prop := kok (fst x) /\ snd x <= imax.
  Notation pc := (lexcmp kc N.compare).
  Hypothesis G : good_key okp pc write read.
  Notation table := (@table bytes V).
  Notation sys := (@DbModel.sys bytes V).
  Notation spec := (@spec K V).
  Notation wr := (@DbSpec.write K V).
  Notation keqb := (DbModel.keqb kc).
  Notation vals := (vals kc).
  Notation klt := (OrdLib.klt kc).
  Notation TD := default_cmp_total.

  Lemma TP : TotalCmp pc.
  Proof. apply lexcmp_total; auto. apply Ncompare_total. Qed.
  Lemma keq x y : keqb x y = true <-> x = y.
  Proof. apply (keqb_eq TK). Qed.
  Lemma kneq x y : keqb x y = false <-> x <> y.
  Proof. apply (keqb_neq TK). Qed.
  Lemma plt k1 n1 k2 n2 : pc (k1, n1) (k2, n2) = Lt <-> klt k1 k2 \/ (k1 = k2 /\ n1 < n2).
  Proof.
    unfold lexcmp; simpl. unfold OrdLib.klt. destruct (kc k1 k2) eqn:E.
    - apply (tc_eq TK) in E. subst. rewrite N.compare_lt_iff. split; auto. intros [H|[_ H]]; auto. discriminate.
    - split; auto.
    - split; [discriminate|]. intros [H|[-> _]]; [discriminate|]. rewrite (cmp_refl TK) in E. discriminate.
  Qed.
  Lemma wlt x y : okp x -> okp y -> default_cmp (write x) (write y) = pc x y.
  Proof. apply (gk_order _ _ _ _ G). Qed.

  (** ** Numbering the writes of a key *)
  Definition cnt (k : K) (ws : list wr) : nat := length (filter (fun w => keqb (wkey w) k) ws).
  Fixpoint numb (pre ws : list wr) : list (@DbSpec.write bytes V) :=
    match ws with
    | [] => []
    | w :: ws' => ((write (wkey w, N.of_nat (cnt (wkey w) pre)), wver w), wval w) :: numb (pre ++ [w]) ws'
    end.

  Lemma cnt_app k a b : cnt k (a ++ b) = (cnt k a + cnt k b)%nat.
  Proof. unfold cnt. rewrite filter_app, app_length. auto. Qed.
  Lemma numb_app pre a b : numb pre (a ++ b) = numb pre a ++ numb (pre ++ a) b.
  Proof.
    revert pre. induction a as [|w a IH]; intros pre; simpl; [rewrite app_nil_r; auto|]. rewrite IH, <- app_assoc. auto.
  Qed.
  Lemma cnt_vals k (a : spec) : cnt k (a_writes a) = length (vals k a).
  Proof. unfold cnt, MultiSpec.vals. rewrite map_length. auto. Qed.

  Definition vle (a b : wr) := wver a <= wver b.

  Lemma drop_nil {A : Type} n (ws : list (@DbSpec.write A V)) : (forall w, In w ws -> n <= wver w) -> drop_from n ws = [].
  Proof.
    unfold drop_from. induction ws as [|w ws IH]; intros H; simpl; auto.
    assert (wver w <? n = false) as -> by (apply N.ltb_ge, H; left; auto). apply IH. intros; apply H; right; auto.
  Qed.
  Lemma numb_ver pre ws : map (@wver bytes V) (numb pre ws) = map (@wver K V) ws.
  Proof. revert pre. induction ws as [|w ws IH]; intros pre; simpl; auto. rewrite IH. auto. Qed.
  Lemma numb_drop n ws : StronglySorted vle ws -> forall pre, drop_from n (numb pre ws) = numb pre (drop_from n ws).
  Proof.
    induction 1 as [|w ws S IH F]; intros pre; simpl; auto.
    unfold wver at 1; simpl. fold (wver w). destruct (N.ltb_spec (wver w) n) as [H|H].
    - simpl. f_equal. apply IH.
    - rewrite Forall_forall in F. fold (drop_from n (numb (pre ++ [w]) ws)). fold (drop_from n ws).
      rewrite (drop_nil n ws), (drop_nil n (numb (pre ++ [w]) ws)); auto.
      + intros x Hx. apply (in_map (@wver bytes V)) in Hx. rewrite numb_ver in Hx. apply in_map_iff in Hx.
        destruct Hx as (y & <- & Hy). apply F in Hy. unfold vle in Hy. lia.
      + intros x Hx. apply F in Hx. unfold vle in Hx. lia.
  Qed.

  (** ** The invariant *)
  Record mrel (s : sys) (ms : spec) : Prop := {
    mr_a : exists a, rel default_cmp s a /\ a_cur a = a_cur ms /\ a_writes a = numb [] (a_writes ms);
    mr_ok : forall w, In w (a_writes ms) -> kok (wkey w);
    mr_cnt : forall k, (cnt k (a_writes ms) <= N.to_nat imax)%nat;
    mr_cur : a_cur ms < u32max
  }.

  Lemma mrel_sorted s ms : mrel s ms -> StronglySorted vle (a_writes ms) /\ forall w, In w (a_writes ms) -> wver w <= a_cur ms.
  Proof.
    intros R. destruct (mr_a _ _ R) as (a & Ra & Ec & Ew). pose proof (rl_sorted _ _ _ Ra) as S. pose proof (rl_le _ _ _ Ra) as L.
    rewrite Ew in *. rewrite Ec in *. split.
    - assert (X : StronglySorted N.le (map (@wver K V) (a_writes ms))).
      { rewrite <- (numb_ver []). apply (sorted_map N.le (@wver bytes V)). exact S. }
      apply (sorted_map N.le (@wver K V)) in X. exact X.
    - intros w Hw. apply (in_map (@wver K V)) in Hw. rewrite <- (numb_ver []) in Hw. apply in_map_iff in Hw.
      destruct Hw as (y & <- & Hy). apply L in Hy. exact Hy.
  Qed.

  (** lookups of (key, index) *)
  Lemma vals_snoc k c (ws : list wr) w : vals k (mk_spec c (ws ++ [w])) = vals k (mk_spec c ws) ++ (if keqb (wkey w) k then [wval w] else []).
  Proof. unfold MultiSpec.vals. simpl. rewrite filter_app, map_app. f_equal. simpl. destruct (keqb (wkey w) k); auto. Qed.

  Lemma a_find_snoc {A} (eqb : A -> A -> bool) c l (w : @DbSpec.write A V) k mv :
    a_find eqb (mk_spec c (l ++ [w])) k mv = if eqb (wkey w) k && (wver w <=? mv) then Some (wval w) else a_find eqb (mk_spec c l) k mv.
  Proof. unfold a_find. simpl. rewrite fold_left_app. reflexivity. Qed.

  Lemma find_idx (c c' : N) (ws : list wr) k i : kok k -> N.of_nat i <= imax ->
    (forall w, In w ws -> kok (wkey w)) -> (cnt k ws <= N.to_nat imax)%nat -> (forall w, In w ws -> wver w <= u32max) ->
    (forall k', (cnt k' ws <= N.to_nat imax)%nat) ->
    a_find (DbModel.keqb default_cmp) (mk_spec c (numb [] ws)) (write (k, N.of_nat i)) u32max = nth_error (vals k (mk_spec c' ws)) i.
  Proof.
    intros Hk Hi. induction ws as [|w ws IH] using rev_ind; intros Hok Hc Hv Hca.
    - unfold a_find, MultiSpec.vals; simpl. destruct i; auto.
    - assert (Hok' : forall w, In w ws -> kok (wkey w)) by (intros; apply Hok; apply in_or_app; auto).
      assert (Hv' : forall w, In w ws -> wver w <= u32max) by (intros; apply Hv; apply in_or_app; auto).
      assert (Hca' : forall k', (cnt k' ws <= N.to_nat imax)%nat) by (intros k'; specialize (Hca k'); rewrite cnt_app in Hca; lia).
      specialize (IH Hok' (Hca' k) Hv' Hca'). rewrite numb_app. cbn [numb app]. etransitivity; [exact (a_find_snoc (A := bytes) (DbModel.keqb default_cmp) c (numb [] ws) _ (write (k, N.of_nat i)) u32max)|].
      match goal with |- (if _ then _ else ?x) = _ => assert (EX : x = nth_error (vals k (mk_spec c' ws)) i) by exact IH; rewrite EX end. rewrite vals_snoc. unfold wkey at 1, wver at 1, wval at 1. cbn [fst snd].
      assert (Kw : kok (wkey w)) by (apply Hok; apply in_or_app; right; left; auto).
      assert (Vw : wver w <=? u32max = true) by (apply N.leb_le, Hv; apply in_or_app; right; left; auto).
      unfold wver in Vw |- *. cbn [fst snd] in *. rewrite Vw, andb_true_r.
      assert (Cw : N.of_nat (cnt (wkey w) ws) <= imax) by (specialize (Hca' (wkey w)); lia).
      destruct (DbModel.keqb default_cmp (write (wkey w, N.of_nat (cnt (wkey w) ws))) (write (k, N.of_nat i))) eqn:E.
      + apply (keqb_eq TD) in E. apply (gk_distinct _ _ _ _ G) in E; [|split; auto|split; auto].
        injection E as E1 E2. apply Nat2N.inj in E2. subst k. subst i.
        pose proof (cnt_vals (wkey w) (mk_spec c' ws)) as X. simpl in X. rewrite X.
        rewrite (proj2 (keq _ _) eq_refl). rewrite nth_error_app2 by lia. rewrite Nat.sub_diag. auto.
      + apply (keqb_neq TD) in E. destruct (keqb (wkey w) k) eqn:Ek; [|rewrite app_nil_r; auto].
        apply keq in Ek. subst k. pose proof (cnt_vals (wkey w) (mk_spec c' ws)) as X. simpl in X.
        destruct (Nat.lt_ge_cases i (length (vals (wkey w) (mk_spec c' ws)))) as [L|L]; [rewrite nth_error_app1; auto|].
        rewrite (proj2 (nth_error_None _ _) L). symmetry. apply nth_error_None. rewrite app_length. simpl.
        assert (i <> length (vals (wkey w) (mk_spec c' ws))); [|lia]. intros ->. apply E. rewrite X. auto.
  Qed.

  Lemma numb_In pre ws x : In x (numb pre ws) -> exists w i, In w ws /\ fst (fst x) = write (wkey w, N.of_nat i) /\
    (i < cnt (wkey w) pre + cnt (wkey w) ws)%nat.
  Proof.
    revert pre. induction ws as [|w ws IH]; intros pre; simpl; [intros []|].
    intros [<-|H].
    - exists w, (cnt (wkey w) pre). split; auto. split; auto. unfold cnt. simpl. rewrite (proj2 (keq _ _) eq_refl). simpl. lia.
    - destruct (IH _ H) as (w' & i & A & B & C). exists w', i. split; auto. split; auto.
      rewrite cnt_app in C. unfold cnt in *. simpl in *. destruct (keqb (wkey w) (wkey w')); simpl in *; lia.
  Qed.

  Lemma a_find_In {A} (eqb : A -> A -> bool) (a : @DbSpec.spec A V) kb mv v : a_find eqb a kb mv = Some v ->
    exists w, In w (a_writes a) /\ eqb (wkey w) kb = true.
  Proof.
    unfold a_find. induction (a_writes a) as [|w ws IH] using rev_ind; simpl; [discriminate|].
    rewrite fold_left_app. simpl. destruct (eqb (wkey w) kb && (wver w <=? mv)) eqn:E.
    - intros _. apply andb_true_iff in E. exists w. split; [apply in_or_app; right; left; auto|]. tauto.
    - intros H. destruct (IH H) as (w' & I & E'). exists w'. split; auto. apply in_or_app; auto.
  Qed.

  Notation tfind s kb := (find default_cmp (s_tab s) kb u32max).

  Lemma m_lookup s ms k i : mrel s ms -> kok k -> N.of_nat i <= imax ->
    tfind s (write (k, N.of_nat i)) = nth_error (vals k ms) i.
  Proof.
    intros R Hk Hi. destruct (mr_a _ _ R) as (a & Ra & Ec & Ew). rewrite (rel_find _ TD _ _ _ _ Ra).
    destruct a as [c wsa]. simpl in *. subst wsa. destruct ms as [c' ws]. simpl in *.
    destruct (mrel_sorted _ _ R) as (_ & L). apply find_idx; auto.
    - apply (mr_ok _ _ R).
    - apply (mr_cnt _ _ R).
    - intros w Hw. apply L in Hw. pose proof (mr_cur _ _ R). simpl in *. lia.
    - apply (mr_cnt _ _ R).
  Qed.

  Lemma m_live s ms kb v : mrel s ms -> tfind s kb = Some v ->
    exists k i, kb = write (k, N.of_nat i) /\ kok k /\ N.of_nat i < imax /\ nth_error (vals k ms) i = Some v.
  Proof.
    intros R E. destruct (mr_a _ _ R) as (a & Ra & Ec & Ew). pose proof E as E0. rewrite (rel_find _ TD _ _ _ _ Ra) in E.
    apply a_find_In in E. destruct E as (x & Hx & Ex). apply (keqb_eq TD) in Ex. rewrite Ew in Hx.
    destruct (numb_In _ _ _ Hx) as (w & i & A & B & C). assert (Ex' : write (wkey w, N.of_nat i) = kb) by exact (eq_trans (eq_sym B) Ex). clear Ex. rename Ex' into Ex.
    assert (Kw : kok (wkey w)) by (apply (mr_ok _ _ R); auto).
    pose proof (mr_cnt _ _ R (wkey w)) as Hc. unfold cnt at 1 in C. simpl in C.
    exists (wkey w), i. split; auto. split; auto. assert (N.of_nat i < imax) by lia. split; auto.
    rewrite <- E0, <- Ex. symmetry. apply m_lookup; auto. lia.
  Qed.

  Lemma mrel_lookup s ms : mrel s ms -> lookup_ok default_cmp (s_tab s).
  Proof. intros R. destruct (mr_a _ _ R) as (a & Ra & _). exact (wi_look _ _ _ (i_w _ _ _ (rl_inv _ _ _ Ra))). Qed.

  Lemma vals_bound s ms k : mrel s ms -> N.of_nat (length (vals k ms)) <= imax.
  Proof. intros R. pose proof (mr_cnt _ _ R k) as H. rewrite cnt_vals in H. lia. Qed.

  (** ** insert *)
  Lemma seek_prev_nb (t : table) kb : lookup_ok default_cmp t ->
    exists i, seek_prev default_cmp t kb = Some i /\ next_below default_cmp (fun x => find default_cmp t x u32max) kb (current i).
  Proof.
    intros L. destruct (seek_ok default_cmp TD t (Some kb) MPrev L Logic.I) as (m & E & A); [discriminate|].
    eexists. split; [exact E|]. apply (at_nb default_cmp TD Bwd t (Rof default_cmp (Some kb) MPrev) kb m L); [|exact A]. intros x. simpl. tauto.
  Qed.

  Lemma m_index_ok s ms k : mrel s ms -> kok k -> m_index kc write read imax (s_tab s) k = Some (N.of_nat (length (vals k ms))).
  Proof.
    intros R Hk. pose proof (mrel_lookup _ _ R) as L. pose proof (vals_bound _ _ k R) as B.
    destruct (seek_prev_nb (s_tab s) (write (k, imax)) L) as (i & E & NB). unfold m_index. rewrite E.
    assert (OM : okp (k, imax)) by (split; simpl; auto; lia).
    (* the last value of the key, if any *)
    assert (Last : forall j v, nth_error (vals k ms) j = Some v -> tfind s (write (k, N.of_nat j)) = Some v /\
              default_cmp (write (k, N.of_nat j)) (write (k, imax)) = Lt /\ okp (k, N.of_nat j)).
    { intros j v Hj. assert (j < length (vals k ms))%nat by (apply nth_error_Some; congruence).
      assert (okp (k, N.of_nat j)) by (split; simpl; auto; lia). split; [rewrite (m_lookup _ _ _ _ R); auto; lia|]. split; auto.
      rewrite wlt; auto. apply plt. right. split; auto. lia. }
    destruct (current i) as [(kb, v)|].
    - destruct NB as (N1 & N2 & N3). destruct (m_live _ _ _ _ R N2) as (k' & i' & -> & Hk' & Hi' & Hv).
      assert (O' : okp (k', N.of_nat i')) by (split; simpl; auto; lia).
      rewrite (gk_round _ _ _ _ G _ O'). f_equal. rewrite wlt in N1; auto. apply plt in N1.
      destruct (keqb k' k) eqn:Ek.
      + apply keq in Ek. subst k'. assert (Hi : (i' < length (vals k ms))%nat) by (apply nth_error_Some; congruence).
        assert (Heq : length (vals k ms) = S i').
        { destruct (nth_error (vals k ms) (S i')) as [v'|] eqn:Ev; [|apply nth_error_None in Ev; lia].
          destruct (Last _ _ Ev) as (L1 & L2 & L3). destruct (N3 (write (k, N.of_nat (S i')))) as [X|X]; auto; [congruence| |].
          - apply (gk_distinct _ _ _ _ G) in X; auto. injection X as X. lia.
          - rewrite wlt in X; auto. apply plt in X. destruct X as [X|(_ & X)]; [exfalso; eapply klt_irrefl; eauto|]. lia. }
        rewrite Heq. rewrite Heq in B. rewrite N.mod_small by lia. lia.
      + apply kneq in Ek. destruct N1 as [N1|(N1 & _)]; [|congruence].
        destruct (vals k ms) as [|v0 vs] eqn:Ev; auto. exfalso.
        destruct (Last 0%nat v0 eq_refl) as (L1 & L2 & L3).
        destruct (N3 (write (k, N.of_nat 0))) as [X|X]; auto; [congruence| |].
        * apply (gk_distinct _ _ _ _ G) in X; auto. congruence.
        * rewrite wlt in X; auto. apply plt in X. destruct X as [X|(X & _)]; [|congruence]. eapply (klt_asym TK); eauto.
    - destruct (vals k ms) as [|v0 vs] eqn:Ev; auto. exfalso. destruct (Last 0%nat v0 eq_refl) as (L1 & L2 & L3).
      eapply NB; [|exact L2]. congruence.
  Qed.

  Lemma mrel_insert lf s ms k v : mrel s ms -> kok k -> (length (vals k ms) < N.to_nat imax)%nat ->
    exists s', sys_step default_cmp lf s (EvOp (OInsert (write (k, N.of_nat (length (vals k ms)))) v)) = Some s' /\
      mrel s' (a_insert k v ms).
  Proof.
    intros R Hk Hr. destruct (mr_a _ _ R) as (a & Ra & Ec & Ew).
    destruct (rel_op default_cmp TD lf s a (OInsert (write (k, N.of_nat (length (vals k ms)))) v) Ra Logic.I) as (s' & E & R').
    exists s'. split; auto. split.
    - exists (spec_op (OInsert (write (k, N.of_nat (length (vals k ms)))) v) a). split; auto. simpl. split; auto.
      rewrite Ew, Ec, numb_app. simpl. unfold wkey at 1; simpl. rewrite cnt_vals. auto.
    - simpl. intros w Hw. apply in_app_or in Hw. destruct Hw as [Hw|[<-|[]]]; [apply (mr_ok _ _ R); auto|exact Hk].
    - intros k'. simpl. rewrite cnt_app. pose proof (mr_cnt _ _ R k') as X. unfold cnt at 2. simpl. unfold wkey at 1; simpl.
      destruct (keqb k k') eqn:Ek; simpl; [|lia]. apply keq in Ek. subst k'. rewrite cnt_vals. lia.
    - simpl. apply (mr_cur _ _ R).
  Qed.

  Lemma vals_insert k v (ms : spec) : length (vals k (a_insert k v ms)) = S (length (vals k ms)).
  Proof.
    destruct ms as [c ws]. unfold a_insert. simpl. rewrite vals_snoc. unfold wkey; simpl. rewrite (proj2 (keq _ _) eq_refl), app_length. simpl. lia.
  Qed.

  Lemma insert_from_ok lf k : kok k -> forall vs s ms, mrel s ms ->
    exists s' b, m_insert_from write imax lf s k (N.of_nat (length (vals k ms))) vs = Some (s', b) /\
      mrel s' (add_all k (firstn (room kc imax k ms) vs) ms) /\ (b = true <-> (length vs <= room kc imax k ms)%nat).
  Proof.
    intros Hk. induction vs as [|v vs IH]; intros s ms R.
    - exists s, true. simpl. rewrite firstn_nil. split; auto. split; auto. split; auto. intros _. lia.
    - cbn [m_insert_from]. pose proof (vals_bound _ _ k R) as B.
      destruct (N.eqb_spec (N.of_nat (length (vals k ms))) imax) as [E|E].
      + exists s, false. assert (X : room kc imax k ms = 0%nat) by (unfold room; lia). rewrite X. simpl. split; auto. split; auto.
        split; [discriminate|lia].
      + assert (Hr : (length (vals k ms) < N.to_nat imax)%nat) by lia.
        destruct (mrel_insert lf s ms k v R Hk Hr) as (s1 & E1 & R1). rewrite E1.
        destruct (IH s1 (a_insert k v ms) R1) as (s' & b & E' & R' & Hb). rewrite vals_insert in E'.
        exists s', b. split; [rewrite <- E'; f_equal; lia|].
        assert (X : room kc imax k ms = S (room kc imax k (a_insert k v ms))) by (unfold room; rewrite vals_insert; lia).
        rewrite X. simpl. split; auto. rewrite Hb. lia.
  Qed.

  Lemma mrel_drop n (ms : spec) s : mrel s ms -> forall w, In w (drop_from n (a_writes ms)) -> kok (wkey w).
  Proof. intros R w Hw. unfold drop_from in Hw. apply filter_In in Hw. apply (mr_ok _ _ R). tauto. Qed.
  Lemma cnt_drop k n ws : (cnt k (drop_from n ws) <= cnt k ws)%nat.
  Proof.
    unfold cnt, drop_from. induction ws as [|w ws IH]; simpl; auto.
    destruct (wver w <? n); simpl; destruct (keqb (wkey w) k); simpl; lia.
  Qed.

  Lemma mrel_step lf s ms c : mrel s ms -> mcall_ok kok c ->
    exists s' b ms', m_step kc write read imax lf s c = Some (s', b) /\ mrel s' ms' /\ mspec_step kc imax c ms b ms'.
  Proof.
    intros R Hc. destruct (mr_a _ _ R) as (a & Ra & Ec & Ew). destruct c as [k vs|n fl|n|n opens]; simpl in Hc |- *.
    - unfold m_insert_many. rewrite (m_index_ok _ _ _ R Hc).
      destruct (insert_from_ok lf k Hc vs s ms R) as (s' & b & E & R' & Hb). rewrite E.
      exists s', b, (add_all k (firstn (room kc imax k ms) vs) ms). auto.
    - destruct (rel_op default_cmp TD lf s a (OCommit n fl) Ra Hc) as (s' & E & R'). cbn [sys_step step] in E. rewrite E.
      exists s', true, (a_commit n ms). split; auto. split; auto. simpl in R'. unfold a_commit in *. rewrite Ec in R'.
      destruct ((n =? 4294967295) || (n <=? a_cur ms)) eqn:X; [split; try (apply R); exists a; auto|].
      split; simpl; try (apply R). + eexists; split; [exact R'|]; auto.
      + apply orb_false_iff in X. destruct X as (X & _). apply N.eqb_neq in X. unfold u32max. lia.
    - destruct (rel_op default_cmp TD lf s a (ORevert n) Ra Hc) as (s' & E & R'). cbn [sys_step step] in E. rewrite E.
      exists s', true, (a_revert n ms). split; auto. split; auto. simpl in R'. unfold a_revert in *. rewrite Ec in R'.
      destruct (N.ltb_spec (a_cur ms) n) as [X|X]; [split; try (apply R); exists a; auto|].
      split; simpl.
      + eexists; split; [exact R'|]. simpl. split; auto. rewrite Ew. apply numb_drop. apply (mrel_sorted _ _ R).
      + eapply mrel_drop; eauto.
      + intros k. etransitivity; [apply cnt_drop|apply (mr_cnt _ _ R)].
      + pose proof (mr_cur _ _ R). lia.
    - destruct (rel_event default_cmp TD lf s a (EvCrash None 0 n opens) Ra Logic.I) as (s' & a' & E & R' & Sv).
      cbn [sys_step op_effs] in E. simpl in E. rewrite E. simpl in Sv. destruct Sv as (S1 & S2 & S3).
      exists s', true, (mk_spec (a_cur a') (drop_from (a_cur ms) (a_writes ms))). split; auto. split.
      + split; simpl.
        * exists a'. split; auto. split; auto. rewrite S1, Ew, Ec. apply numb_drop. apply (mrel_sorted _ _ R).
        * eapply mrel_drop; eauto.
        * intros k. etransitivity; [apply cnt_drop|apply (mr_cnt _ _ R)].
        * pose proof (mr_cur _ _ R). lia.
      + split; auto. split; [reflexivity|]. split; [simpl; lia|]. simpl.
        rewrite Forall_forall in *. intros w Hw.
        assert (Y : In (wver w) (map (@wver bytes V) (a_writes a'))).
        { rewrite S1, Ew, Ec, numb_drop by apply (mrel_sorted _ _ R). rewrite numb_ver. apply in_map. auto. }
        apply in_map_iff in Y. destruct Y as (y & Ey & Hy). apply S3 in Hy. lia.
  Qed.

  Lemma mrel_run lf cs : forall s ms, mrel s ms -> Forall (mcall_ok kok) cs ->
    exists s' bs ms', m_run kc write read imax lf s cs = Some (s', bs) /\ mrel s' ms' /\ mspec_run kc imax cs ms bs ms'.
  Proof.
    induction cs as [|c cs IH]; intros s ms R F; simpl.
    - exists s, [], ms. auto.
    - inversion F as [|? ? F1 F2]; subst. destruct (mrel_step lf s ms c R F1) as (s1 & b & m1 & E & R1 & S1). rewrite E.
      destruct (IH s1 m1 R1 F2) as (s' & bs & m' & E' & R' & S'). rewrite E'. exists s', (b :: bs), m'. split; auto. split; auto.
      exists m1. auto.
  Qed.

  (** ** Reading *)
  Definition ent : Type := ((K * N) * V)%type.
  Definition wre (x : ent) : bytes * V := (write (fst x), snd x).
  Definition kv (x : ent) : K * V := (fst (fst x), snd x).

  (** the listing of the table, decoded *)
  Record decoded (s : sys) (ms : spec) (l : list (bytes * V)) (P : list ent) : Prop := {
    dc_map : l = map wre P;
    dc_ok : forall x, In x P -> okp (fst x);
    dc_sorted : asorted pc P;
    dc_In : forall k i v, In ((k, i), v) P <-> kok k /\ i < imax /\ nth_error (vals k ms) (N.to_nat i) = Some v
  }.

  Lemma sorted_map_iff {A B} (R : B -> B -> Prop) (f : A -> B) l : StronglySorted R (map f l) <-> StronglySorted (fun x y => R (f x) (f y)) l.
  Proof. apply sorted_map. Qed.

  Lemma sorted_impl {A} (R Q : A -> A -> Prop) l : StronglySorted R l -> (forall x y, In x l -> In y l -> R x y -> Q x y) -> StronglySorted Q l.
  Proof.
    induction 1 as [|a l S IH F]; intros H; constructor.
    - apply IH. intros x y Hx Hy. apply H; right; auto.
    - rewrite Forall_forall in *. intros x Hx. apply H; [left; auto|right; auto|auto].
  Qed.

  Lemma decode_listing s ms l : mrel s ms -> lists default_cmp (fun kb => tfind s kb) l -> exists P, decoded s ms l P.
  Proof.
    intros R (S & HI).
    assert (X : forall l', incl l' l -> exists P, l' = map wre P /\ forall x, In x P -> okp (fst x)).
    { induction l' as [|(kb, v) l' IH]; intros Hl; [exists []; split; auto; intros ? []|].
      destruct IH as (P & -> & H); [intros x Hx; apply Hl; right; auto|].
      assert (Y : tfind s kb = Some v) by (apply HI, Hl; left; auto).
      destruct (m_live _ _ _ _ R Y) as (k & i & -> & Hk & Hi & Hv).
      exists (((k, N.of_nat i), v) :: P). split; auto. intros x [<-|Hx]; auto. split; simpl; auto. lia. }
    destruct (X l (incl_refl l)) as (P & E & HO). exists P. split; auto.
    - rewrite E, map_map in S. apply (proj1 (sorted_map _ _ _)) in S. apply sorted_map. eapply sorted_impl; [exact S|].
      intros x y Hx Hy. simpl. unfold OrdLib.klt. rewrite wlt; auto.
    - intros k i v. split.
      + intros H. assert (Y : In (write (k, i), v) l) by (rewrite E; apply in_map_iff; exists ((k, i), v); auto).
        apply HI in Y. destruct (m_live _ _ _ _ R Y) as (k' & i' & Ew & Hk & Hi & Hv).
        apply (gk_distinct _ _ _ _ G) in Ew; [|apply (HO _ H)|split; simpl; auto; lia]. injection Ew as -> ->.
        rewrite Nat2N.id. auto.
      + intros (Hk & Hi & Hv). assert (Y : tfind s (write (k, N.of_nat (N.to_nat i))) = Some v) by (rewrite (m_lookup _ _ _ _ R); auto; lia).
        rewrite N2Nat.id in Y. apply HI in Y. rewrite E in Y. apply in_map_iff in Y. destruct Y as (((k', i'), v') & Y1 & Y2).
        unfold wre in Y1. cbn [fst snd] in Y1. assert (Yv : v' = v) by congruence. assert (Yw : write (k', i') = write (k, i)) by congruence. subst v'. clear Y1. rename Yw into Y1. apply (gk_distinct _ _ _ _ G) in Y1; [|apply (HO _ Y2)|split; simpl; auto; lia].
        injection Y1 as -> ->. auto.
  Qed.

  Fixpoint take_while {A} (f : A -> bool) (l : list A) : list A :=
    match l with [] => [] | a :: l' => if f a then a :: take_while f l' else [] end.
  Lemma take_filter {A} (R : A -> A -> Prop) (f : A -> bool) l : StronglySorted R l ->
    (forall x y, In x l -> In y l -> R x y -> f y = true -> f x = true) -> take_while f l = filter f l.
  Proof.
    induction 1 as [|a l S IH F]; intros H; simpl; auto. destruct (f a) eqn:E.
    - f_equal. apply IH. intros x y Hx Hy. apply H; right; auto.
    - rewrite Forall_forall in F. symmetry. assert (X : forall y, In y l -> f y = false).
      { intros y Hy. destruct (f y) eqn:Ey; auto. rewrite <- E. symmetry. apply (H a y); auto; [left; auto|right; auto]. }
      clear - X. induction l as [|b l IH]; simpl; auto. rewrite (X b) by (left; auto). apply IH. intros; apply X; right; auto.
  Qed.

  Lemma collect_ok t stop : forall Q fuel i, (forall x, In x Q -> okp (fst x)) -> (length Q <= fuel)%nat ->
    yields current (it_next default_cmp t) i (map wre Q) ->
    m_collect read fuel t stop i = Some (map kv (take_while (fun x => negb (stop (fst (fst x)))) Q)).
  Proof.
    induction Q as [|((k, n), v) Q IH]; intros fuel i HO Hf Y; simpl in Y; inversion Y as [? C|? ? i' ? C St Y']; subst.
    - destruct fuel; simpl; rewrite C; auto.
    - destruct fuel as [|fuel]; [simpl in Hf; lia|]. cbn [m_collect]. rewrite C.
      unfold wre; cbn [fst snd]. rewrite (gk_round _ _ _ _ G) by (apply (HO ((k, n), v)); left; auto). simpl.
      destruct (stop k) eqn:E; simpl; auto. rewrite St.
      rewrite (IH fuel i'); auto; [intros; apply HO; right; auto|simpl in Hf; lia].
  Qed.

  Lemma last_ok t k : forall Q limit i, (forall x, In x Q -> okp (fst x)) ->
    yields current (it_prev default_cmp t) i (map wre Q) ->
    m_last kc read limit t k i = Some (firstn limit (map snd (take_while (fun x => keqb (fst (fst x)) k) Q))).
  Proof.
    induction Q as [|((k', n), v) Q IH]; intros limit i HO Y; simpl in Y; inversion Y as [? C|? ? i' ? C St Y']; subst.
    - destruct limit; simpl; rewrite C; auto.
    - destruct limit as [|limit]; [simpl; rewrite C; auto|]. cbn [m_last]. rewrite C.
      unfold wre; cbn [fst snd]. rewrite (gk_round _ _ _ _ G) by (apply (HO ((k', n), v)); left; auto). simpl.
      destruct (keqb k' k) eqn:E; simpl; auto. rewrite St.
      rewrite (IH limit i'); auto. intros; apply HO; right; auto.
  Qed.

  Lemma fuel_ok s ms l P : mrel s ms -> lists default_cmp (fun kb => tfind s kb) l -> decoded s ms l P -> (length P <= m_fuel (s_tab s))%nat.
  Proof.
    intros R (S & HI) D. pose proof (mrel_lookup _ _ R) as L.
    assert (E : m_fuel (s_tab s) = length (map (@ekey bytes V) (content (s_tab s)))).
    { unfold m_fuel, content, bentries. rewrite map_length, app_length. auto. }
    rewrite E. rewrite <- (map_length wre P), <- (dc_map _ _ _ _ D), <- (map_length fst l). apply NoDup_incl_length.
    - clear - S. induction S as [|a l0 S IH F]; constructor; auto. rewrite Forall_forall in F. intros H. apply F in H.
      rewrite (cmp_refl TD) in H. discriminate.
    - intros kb H. apply in_map_iff in H. destruct H as ((kb', v) & <- & H). apply HI in H. simpl.
      pose proof (find_newest TD kb' u32max L) as N. rewrite H in N. destruct N as (n & I & _).
      apply in_map_iff. exists ((kb', n), v). auto.
  Qed.

  Lemma filter_map' {A B} (f : A -> B) g l : filter g (map f l) = map f (filter (fun x => g (f x)) l).
  Proof. induction l as [|a l IH]; simpl; auto. destruct (g (f a)); simpl; rewrite IH; auto. Qed.
  Lemma filter_ext_In {A} (f g : A -> bool) l : (forall x, In x l -> f x = g x) -> filter f l = filter g l.
  Proof.
    induction l as [|a l IH]; intros H; simpl; auto. rewrite (H a) by (left; auto). rewrite IH; auto. intros; apply H; right; auto.
  Qed.
  Lemma filter_filter {A} (f g : A -> bool) l : filter f (filter g l) = filter (fun x => g x && f x) l.
  Proof. induction l as [|a l IH]; simpl; auto. destruct (g a); simpl; destruct (f a); simpl; rewrite IH; auto. Qed.
  Lemma filter_rev {A} (f : A -> bool) l : filter f (rev l) = rev (filter f l).
  Proof.
    induction l as [|a l IH]; simpl; auto. rewrite filter_app, IH. simpl. destruct (f a); simpl; auto. rewrite app_nil_r. auto.
  Qed.

  (** the values of one key, decoded in order *)
  Fixpoint enum (i : N) (vs : list V) : list (N * V) := match vs with [] => [] | v :: vs' => (i, v) :: enum (i + 1) vs' end.
  Lemma enum_In i vs j v : In (j, v) (enum i vs) <-> i <= j /\ nth_error vs (N.to_nat (j - i)) = Some v.
  Proof.
    revert i. induction vs as [|a vs IH]; intros i; simpl.
    - split; [intros []|]. intros (_ & H). destruct (N.to_nat (j - i)); discriminate.
    - rewrite IH. split.
      + intros [[= <- <-]|(A & B)]; [rewrite N.sub_diag; simpl; split; auto; lia|]. split; [lia|].
        replace (N.to_nat (j - i)) with (S (N.to_nat (j - (i + 1)))) by lia. auto.
      + intros (A & B). destruct (N.eq_dec i j) as [->|]; [rewrite N.sub_diag in B; simpl in B; left; congruence|]. right.
        split; [lia|]. replace (N.to_nat (j - i)) with (S (N.to_nat (j - (i + 1)))) in B by lia. auto.
  Qed.
  Lemma enum_sorted i vs : asorted N.compare (enum i vs).
  Proof.
    revert i. induction vs as [|a vs IH]; intros i; simpl; [constructor|]. apply asorted_cons; auto.
    intros k' v' H. apply enum_In in H. unfold OrdLib.klt. apply N.compare_lt_iff. lia.
  Qed.
  Lemma enum_snd i vs : map snd (enum i vs) = vs.
  Proof. revert i. induction vs as [|a vs IH]; intros i; simpl; auto. rewrite IH. auto. Qed.

  Lemma vals_ok s ms k : mrel s ms -> vals k ms <> [] -> kok k.
  Proof.
    intros R H. unfold MultiSpec.vals in H. destruct (filter (fun w => keqb (wkey w) k) (a_writes ms)) as [|w ws] eqn:E; [simpl in H; congruence|].
    assert (X : In w (filter (fun w => keqb (wkey w) k) (a_writes ms))) by (rewrite E; left; auto).
    apply filter_In in X. destruct X as (X & Y). apply keq in Y. subst k. apply (mr_ok _ _ R); auto.
  Qed.

  Lemma decoded_vals s ms l P k : mrel s ms -> decoded s ms l P ->
    map snd (filter (fun x => keqb (fst (fst x)) k) P) = vals k ms.
  Proof.
    intros R D. set (Pk := filter (fun x : ent => keqb (fst (fst x)) k) P).
    assert (E : map (fun x : ent => (snd (fst x), snd x)) Pk = enum 0 (vals k ms)).
    { apply (asorted_ext Ncompare_total).
      - unfold asorted. rewrite map_map. apply sorted_map. simpl. pose proof (dc_sorted _ _ _ _ D) as S. apply (proj1 (sorted_map _ _ _)) in S.
        eapply sorted_impl; [apply sorted_filter, S|]. intros ((k1, n1), v1) ((k2, n2), v2) H1 H2. simpl.
        apply filter_In in H1, H2. destruct H1 as (_ & H1), H2 as (_ & H2). simpl in H1, H2. apply keq in H1, H2. subst.
        unfold OrdLib.klt. rewrite plt. intros [X|(_ & X)]; [exfalso; eapply klt_irrefl; eauto|]. apply N.compare_lt_iff. auto.
      - apply enum_sorted.
      - intros j.
        assert (Ss : asorted N.compare (map (fun x : ent => (snd (fst x), snd x)) Pk)).
        { unfold asorted. rewrite map_map. apply sorted_map. simpl. pose proof (dc_sorted _ _ _ _ D) as S. apply (proj1 (sorted_map _ _ _)) in S.
          eapply sorted_impl; [apply sorted_filter, S|]. intros ((k1, n1), v1) ((k2, n2), v2) H1 H2. simpl.
          apply filter_In in H1, H2. destruct H1 as (_ & H1), H2 as (_ & H2). simpl in H1, H2. apply keq in H1, H2. subst.
          unfold OrdLib.klt. rewrite plt. intros [X|(_ & X)]; [exfalso; eapply klt_irrefl; eauto|]. apply N.compare_lt_iff. auto. }
        assert (Y : forall v, In (j, v) (map (fun x : ent => (snd (fst x), snd x)) Pk) <-> In (j, v) (enum 0 (vals k ms))).
        { intros v. rewrite enum_In, N.sub_0_r. rewrite in_map_iff. split.
          - intros (((k1, n1), v1) & [= <- <-] & H). apply filter_In in H. destruct H as (H & Ek). simpl in Ek. apply keq in Ek. subst.
            apply (dc_In _ _ _ _ D) in H. split; [lia|tauto].
          - intros (_ & H). assert (Hlt : (N.to_nat j < length (vals k ms))%nat) by (apply nth_error_Some; congruence).
            assert (Kk : kok k) by (eapply vals_ok; eauto; intros X; rewrite X in Hlt; simpl in Hlt; lia).
            pose proof (vals_bound _ _ k R). exists ((k, j), v). split; auto. apply filter_In. split; [|simpl; apply keq; auto].
            apply (dc_In _ _ _ _ D). split; auto. split; auto. lia. }
        destruct (aget N.compare j (enum 0 (vals k ms))) as [v|] eqn:Ev.
        + apply (aget_In Ncompare_total) in Ev; [|apply enum_sorted]. apply (aget_In Ncompare_total); auto. apply Y. auto.
        + apply (aget_None Ncompare_total); auto. pose proof (proj1 (aget_None Ncompare_total j (enum_sorted 0 (vals k ms))) Ev) as Z.
          intros v H. apply Y in H. eapply Z; eauto. }
    rewrite <- (enum_snd 0 (vals k ms)), <- E, map_map. apply map_ext. auto.
  Qed.

  (** weakly sorted by key *)
  Lemma decoded_weak s ms l P : decoded s ms l P -> StronglySorted (fun x y : ent => kc (fst (fst x)) (fst (fst y)) <> Gt) P.
  Proof.
    intros D. pose proof (dc_sorted _ _ _ _ D) as S. apply (proj1 (sorted_map _ _ _)) in S. eapply sorted_impl; [exact S|].
    intros ((k1, n1), v1) ((k2, n2), v2) _ _. simpl. unfold OrdLib.klt. rewrite plt. intros [X|(-> & _)].
    - unfold OrdLib.klt in X. congruence.
    - rewrite (cmp_refl TK). discriminate.
  Qed.

  Lemma not_gt x y : kc x y <> Gt <-> klt x y \/ x = y.
  Proof.
    unfold OrdLib.klt. rewrite <- (tc_eq TK). destruct (kc x y); split; auto; try congruence. intros [|]; discriminate.
  Qed.

  Definition from_key (k : K) (x : K * V) : bool := match kc (fst x) k with Lt => false | _ => true end.
  Definition before_key (k : K) (x : K * V) : bool := match kc (fst x) k with Lt => true | _ => false end.

  Lemma reading s ms : mrel s ms ->
    exists l, by_key kc ms l /\
      m_scan read (s_tab s) = Some l /\
      (forall k, kok k -> m_find kc write read (s_tab s) k false = Some (vals k ms)) /\
      (forall k, kok k -> m_find kc write read (s_tab s) k true = Some (map snd (filter (from_key k) l))) /\
      (forall b e, kok b -> m_find_range kc write read (s_tab s) b e = Some (filter (fun x => from_key b x && before_key e x) l)) /\
      (forall k n, kok k -> m_find_last kc write read imax (s_tab s) k n = Some (firstn n (rev (vals k ms)))).
  Proof.
    intros R. pose proof (mrel_lookup _ _ R) as L.
    pose proof (listing_ok default_cmp TD _ L) as HL. set (l := listing default_cmp (s_tab s)) in *.
    destruct (decode_listing s ms l R HL) as (P & D).
    destruct (C07_table default_cmp TD _ l L HL) as ((i0 & E0 & Y0) & _ & HS & HP).
    pose proof (fuel_ok _ _ _ _ R HL D) as Hf. pose proof (decoded_weak _ _ _ _ D) as W.
    assert (Hfl : forall g, (length (filter g P) <= m_fuel (s_tab s))%nat).
    { intros g. assert (length (filter g P) <= length P)%nat; [|lia]. clear. induction P as [|a P IH]; simpl; auto. destruct (g a); simpl; lia. }
    assert (RF : forall k stop, kok k -> m_read_from write read (s_tab s) k stop =
              Some (map kv (take_while (fun x => negb (stop (fst (fst x)))) (filter (fun x => from_key k (kv x)) P)))).
    { intros k stop Hk. destruct (HS (write (k, 0))) as (i & E & Y). unfold m_read_from. rewrite E.
      apply collect_ok; auto.
      - intros x Hx. apply filter_In in Hx. apply (dc_ok _ _ _ _ D). tauto.
      - rewrite (dc_map _ _ _ _ D), filter_map' in Y.
        erewrite (filter_ext_In (fun x => from_key k (kv x)) (fun x => negb (below default_cmp (write (k, 0)) (wre x)))); [exact Y|].
        intros ((k1, n1), v1) Hx. unfold from_key, below, kv, wre. simpl. apply (dc_ok _ _ _ _ D) in Hx. simpl in Hx.
        rewrite wlt; auto; [|split; simpl; auto; lia]. unfold lexcmp; simpl. destruct (kc k1 k); auto.
        destruct (n1 ?= 0) eqn:E1; auto. exfalso; destruct n1; discriminate. }
    exists (map kv P). split; [|split; [|split; [|split; [|split]]]].
    - split.
      + apply sorted_map. exact W.
      + intros k. rewrite filter_map', map_map. simpl. exact (decoded_vals s ms l P k R D).
    - unfold m_scan. rewrite E0. rewrite (dc_map _ _ _ _ D) in Y0.
      rewrite (collect_ok (s_tab s) (fun _ => false) P (m_fuel (s_tab s)) i0 (dc_ok _ _ _ _ D) Hf Y0). f_equal. f_equal.
      clear. induction P as [|a P IH]; simpl; auto. f_equal. auto.
    - intros k Hk. unfold m_find. rewrite (RF k _ Hk). simpl. f_equal. rewrite map_map. simpl.
      rewrite (take_filter (fun x y : ent => kc (fst (fst x)) (fst (fst y)) <> Gt)).
      + rewrite filter_filter. rewrite <- (decoded_vals s ms l P k R D). f_equal. apply filter_ext_In.
        intros ((k1, n1), v1) _. unfold from_key, kv. simpl. rewrite negb_involutive. destruct (keqb k1 k) eqn:E.
        * apply keq in E. subst. rewrite (cmp_refl TK). auto.
        * destruct (kc k1 k); auto.
      + apply sorted_filter. exact W.
      + intros x y Hx Hy Hr. rewrite !negb_involutive. intros Ey. apply keq in Ey. rewrite Ey in Hr.
        apply filter_In in Hx. destruct Hx as (_ & Hx). unfold from_key, kv in Hx. simpl in Hx.
        apply keq. apply not_gt in Hr. destruct Hr as [Hr|Hr]; auto. unfold OrdLib.klt in Hr. rewrite Hr in Hx. discriminate.
    - intros k Hk. unfold m_find. rewrite (RF k _ Hk). simpl. f_equal. rewrite filter_map'. f_equal. f_equal.
      generalize (filter (fun x : ent => from_key k (kv x)) P). clear. intros Q. induction Q as [|a Q IH]; simpl; auto. f_equal. auto.
    - intros b e Hb. unfold m_find_range. rewrite (RF b _ Hb). f_equal.
      rewrite (take_filter (fun x y : ent => kc (fst (fst x)) (fst (fst y)) <> Gt)).
      + rewrite filter_filter, filter_map'. f_equal. apply filter_ext_In. intros ((k1, n1), v1) _. unfold before_key, from_key, kv. simpl.
        destruct (kc k1 b); auto; destruct (kc k1 e); auto.
      + apply sorted_filter. exact W.
      + intros x y Hx Hy Hr. apply not_gt in Hr. destruct (kc (fst (fst y)) e) eqn:Ey; simpl; try discriminate. intros _.
        destruct Hr as [Hr|Hr]; [|rewrite Hr, Ey; auto].
        assert (X : klt (fst (fst x)) e) by (eapply klt_trans; eauto). unfold OrdLib.klt in X. rewrite X. auto.
    - intros k n Hk. unfold m_find_last. destruct (HP (write (k, imax))) as (i & E & Y). rewrite E.
      rewrite (dc_map _ _ _ _ D), filter_map', <- map_rev in Y.
      rewrite (last_ok (s_tab s) k _ n i (fun x Hx => dc_ok _ _ _ _ D x (proj1 (proj1 (filter_In _ _ _) (proj2 (in_rev _ _) Hx)))) Y).
      f_equal. f_equal. rewrite <- (decoded_vals s ms l P k R D), <- map_rev. f_equal.
      assert (OM : okp (k, imax)) by (split; simpl; auto; lia).
      rewrite (take_filter (fun x y : ent => kc (fst (fst y)) (fst (fst x)) <> Gt)).
      + rewrite filter_rev, filter_filter. f_equal. apply filter_ext_In. intros ((k1, n1), v1) Hx. unfold below, wre. simpl.
        pose proof (dc_ok _ _ _ _ D _ Hx) as Ox. simpl in Ox. rewrite wlt; auto.
        destruct (keqb k1 k) eqn:Ek; [|apply andb_false_r]. apply keq in Ek. subst.
        apply (dc_In _ _ _ _ D) in Hx. assert (X : pc (k, n1) (k, imax) = Lt) by (apply plt; right; split; auto; tauto). rewrite X. auto.
      + apply (sorted_rev (fun x y : ent => kc (fst (fst x)) (fst (fst y)) <> Gt)). apply sorted_filter. exact W.
      + intros x y Hx Hy Hr Ey. apply keq in Ey. rewrite Ey in Hr. apply keq.
        apply in_rev in Hx. apply filter_In in Hx. destruct Hx as (HxP & Hx).
        pose proof (dc_ok _ _ _ _ D _ HxP) as Ox. destruct x as ((k1, n1), v1). simpl in *. unfold below, wre in Hx. simpl in Hx.
        rewrite wlt in Hx; auto. destruct (pc (k1, n1) (k, imax)) eqn:X; try discriminate. apply plt in X.
        apply not_gt in Hr. destruct X as [X|(X & _)]; auto. destruct Hr as [Hr|Hr]; auto. exfalso. eapply (klt_asym TK); eauto.
  Qed.

  Lemma mrel_init lf : exists s, init_sys default_cmp lf = Some s /\ mrel s (@a_init K V).
  Proof.
    destruct (@rel_init bytes V default_cmp TD lf) as (s & E & R). exists s. split; auto. split.
    - exists (@a_init bytes V). auto.
    - intros w [].
    - intros k. unfold cnt. simpl. lia.
    - reflexivity.
  Qed.
End P.
