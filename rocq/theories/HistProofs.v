(** Proofs about histories *)
Require Import List Arith NArith ZArith Bool Sorted Permutation Lia.
From Verif Require Import BytesLib OrdLib VarModel EngineModel ExecModel StorModel TxModel TxSpec BlockModel BlockSpec BlockProofs BlockProps HistModel HistSpec.
Import List ListNotations.
Open Scope N_scope.

Lemma KT : TotalCmp key_cmp.
Proof. apply lexcmp_total; [apply lexcmp_total|]; auto using bytescmp_total, Ncompare_total. Qed.
Lemma key_ltb_iff a b : key_ltb a b = true <-> klt key_cmp a b.
Proof. unfold key_ltb, klt. destruct (key_cmp a b); split; congruence. Qed.
Lemma key_ltb_false a b : key_ltb a b = false <-> a = b \/ klt key_cmp b a.
Proof.
  destruct (klt_total KT a b) as [L|[->|L]].
  - split; intros E.
    + apply key_ltb_iff in L. congruence.
    + exfalso. destruct E as [->|L']; [eapply (klt_irrefl KT); eauto|eapply (klt_asym KT); eauto].
  - split; auto. intros _. destruct (key_ltb b b) eqn:E; auto. apply key_ltb_iff in E. exfalso. eapply (klt_irrefl KT); eauto.
  - split; auto. intros _. destruct (key_ltb a b) eqn:E; auto. apply key_ltb_iff in E. exfalso. eapply (klt_asym KT); eauto.
Qed.
Lemma klt_spec p h t p' h' t' : klt key_cmp ((p, h), t) ((p', h'), t') <-> bytescmp p p' = Lt \/ (p = p' /\ (h < h' \/ (h = h' /\ t < t'))).
Proof.
  unfold klt, key_cmp, lexcmp. cbn [fst snd]. destruct (bytescmp p p') eqn:E.
  - apply (tc_eq bytescmp_total) in E. subst p'.
    destruct (N.compare_spec h h') as [->|L|L].
    + split.
      * intros E. apply N.compare_lt_iff in E. auto.
      * intros [E|(_ & [E|(_ & E)])]; [congruence|lia|apply N.compare_lt_iff; auto].
    + split; auto.
    + split; [discriminate|]. intros [E|(_ & [E|(E & _)])]; [congruence|lia|lia].
  - split; auto.
  - split; [discriminate|]. intros [E'|(-> & _)]; [congruence|]. rewrite (cmp_refl bytescmp_total) in E. discriminate.
Qed.

(** ** Lists in descending order *)
Section LISTS.
  Context {V : Type}.
  Notation row := (key * V)%type.
  Definition desc (l : list row) : Prop := StronglySorted (fun x y => klt key_cmp (fst y) (fst x)) l.

  Lemma desc_app l1 l2 : desc l1 -> desc l2 -> (forall x y, In x l1 -> In y l2 -> klt key_cmp (fst y) (fst x)) -> desc (l1 ++ l2).
  Proof.
    induction l1 as [|x l1 IH]; intros S1 S2 HH; cbn [app]; auto. inversion_clear S1 as [|? ? S1' F]. constructor.
    - apply IH; auto. intros a b Ha Hb. apply HH; [right|]; auto.
    - apply Forall_app. split; auto. apply Forall_forall. intros b Hb. apply HH; [left|]; auto.
  Qed.
  Lemma desc_rev l : asorted key_cmp l -> desc (rev l).
  Proof.
    unfold asorted. induction l as [|x l IH]; intros A; [constructor|]. cbn [map] in A. inversion_clear A as [|? ? S1 F]. cbn [rev].
    apply desc_app; auto; [constructor; constructor|]. intros a b Ha [<-|[]]. apply In_rev in Ha. rewrite Forall_forall in F. apply F, in_map; auto.
  Qed.
  Lemma desc_filter f l : desc l -> desc (filter f l).
  Proof.
    induction 1 as [|x l S1 IH F]; cbn [filter]; [constructor|]. destruct (f x); auto. constructor; auto.
    rewrite Forall_forall in F |- *. intros y Hy. apply filter_In in Hy. apply F, Hy.
  Qed.
  Lemma desc_app_inv l1 l2 : desc (l1 ++ l2) -> desc l1 /\ desc l2 /\ forall x y, In x l1 -> In y l2 -> klt key_cmp (fst y) (fst x).
  Proof.
    induction l1 as [|a l1 IH]; cbn [app]; intros D; [split; [constructor|]; split; auto; intros ? ? []|].
    inversion_clear D as [|? ? D' F]. destruct (IH D') as (A & B & C). rewrite Forall_forall in F.
    split; [constructor; auto; apply Forall_forall; intros; apply F, in_or_app; auto|]. split; auto.
    intros x y [<-|Hx] Hy; auto. apply F, in_or_app; auto.
  Qed.
  Lemma desc_nodup l : desc l -> NoDup l.
  Proof.
    induction 1 as [|x l S1 IH F]; constructor; auto. intros I. rewrite Forall_forall in F. apply F in I. eapply (klt_irrefl KT); eauto.
  Qed.
  Lemma filter_rev' (f : row -> bool) l : filter f (rev l) = rev (filter f l).
  Proof. induction l as [|x l IH]; [reflexivity|]. cbn [rev filter]. rewrite filter_app, IH. cbn [filter]. destruct (f x); cbn [rev]; rewrite ?app_nil_r; auto. Qed.
  Lemma filter_filter (f g : row -> bool) l : filter f (filter g l) = filter (fun x => g x && f x) l.
  Proof. induction l as [|x l IH]; [reflexivity|]. cbn [filter]. destruct (g x); cbn [filter andb]; [destruct (f x); rewrite IH; auto|auto]. Qed.
  (** a property that passes to higher keys *)
  Lemma up_split (p : row -> bool) l : desc l -> (forall x y, p y = true -> klt key_cmp (fst y) (fst x) -> p x = true) ->
    take_while p l = filter p l /\ l = filter p l ++ filter (fun x => negb (p x)) l.
  Proof.
    intros D U. induction D as [|x l S1 IH F]; [split; reflexivity|]. destruct IH as (IH1 & IH2). cbn [take_while filter].
    destruct (p x) eqn:E; cbn [negb].
    - rewrite IH1. split; auto. cbn [app]. f_equal; auto.
    - rewrite Forall_forall in F.
      assert (N : filter p l = []).
      { destruct (filter p l) as [|y l'] eqn:Q; auto. exfalso. assert (I : In y (filter p l)) by (rewrite Q; left; auto).
        apply filter_In in I. destruct I as (I & Py). apply F in I. rewrite (U _ _ Py I) in E. discriminate. }
      rewrite N in *. split; auto. cbn [app] in *. f_equal; auto.
  Qed.

  Lemma last_range_filter log lo hi : asorted key_cmp log ->
    last_range lo hi log = filter (fun r : row => key_ltb (fst r) hi && negb (key_ltb (fst r) lo)) (rev log).
  Proof.
    intros A. unfold last_range. rewrite <- filter_rev'.
    destruct (up_split (fun r : row => negb (key_ltb (fst r) lo)) (filter (fun r => key_ltb (fst r) hi) (rev log))) as (-> & _).
    - apply desc_filter, desc_rev; auto.
    - intros x y Hy L. apply negb_true_iff in Hy. apply negb_true_iff. apply key_ltb_false in Hy. apply key_ltb_false. right.
      destruct Hy as [<-|Hy]; auto. eapply (klt_trans KT); eauto.
    - apply filter_filter.
  Qed.
  Lemma last_range_desc log lo hi : asorted key_cmp log -> desc (last_range (V:=V) lo hi log).
  Proof. intros A. rewrite last_range_filter by auto. apply desc_filter, desc_rev; auto. Qed.
  Lemma last_range_in log lo hi r : asorted key_cmp log ->
    In r (last_range (V:=V) lo hi log) <-> In r log /\ klt key_cmp (fst r) hi /\ (lo = fst r \/ klt key_cmp lo (fst r)).
  Proof.
    intros A. rewrite last_range_filter, filter_In, <- in_rev by auto. rewrite andb_true_iff, key_ltb_iff, negb_true_iff, key_ltb_false.
    intuition auto.
  Qed.
  (** reading goes on below a row that was read *)
  Lemma last_range_below log lo hi l1 x l2 : asorted key_cmp log -> last_range (V:=V) lo hi log = l1 ++ x :: l2 -> last_range lo (fst x) log = l2.
  Proof.
    intros A E. pose proof (last_range_desc log lo hi A) as D.
    assert (I : In x (last_range lo hi log)) by (rewrite E; apply in_or_app; right; left; auto).
    apply (last_range_in _ _ _ _ A) in I. destruct I as (_ & Lx & _).
    assert (Q : last_range lo (fst x) log = filter (fun r => key_ltb (fst r) (fst x)) (last_range lo hi log)).
    { rewrite !last_range_filter, filter_filter by auto. apply filter_ext. intros r.
      destruct (key_ltb (fst r) (fst x)) eqn:E1; cbn [andb]; rewrite ?andb_false_r, ?andb_true_r; auto.
      replace (key_ltb (fst r) hi) with true; auto. symmetry. apply key_ltb_iff. apply key_ltb_iff in E1. eapply (klt_trans KT); eauto. }
    rewrite Q, E. rewrite E in D. apply desc_app_inv in D. destruct D as (_ & D2 & D3). rewrite filter_app.
    assert (N : filter (fun r => key_ltb (fst r) (fst x)) l1 = []).
    { clear -D3. induction l1 as [|a l1 IH]; auto. cbn [filter].
      replace (key_ltb (fst a) (fst x)) with false; [apply IH; intros; apply D3; [right|]; auto|].
      symmetry. apply key_ltb_false. right. apply D3; [left|left]; auto. }
    rewrite N. cbn [app filter]. replace (key_ltb (fst x) (fst x)) with false by (symmetry; apply key_ltb_false; auto).
    inversion_clear D2 as [|? ? _ F]. clear -F. induction l2 as [|a l2 IH]; auto. inversion_clear F. cbn [filter].
    replace (key_ltb (fst a) (fst x)) with true by (symmetry; apply key_ltb_iff; auto). f_equal; auto.
  Qed.
End LISTS.

(** ** Reading the rows of all addresses *)
Section SCAN.
  Context {V : Type}.
  Variables (log : list (key * V)) (view : key * V -> list entry) (finish : bool) (q : query).
  Hypothesis A : asorted key_cmp log.
  Hypothesis VIEW : forall r, (List.length (view r) <= 1)%nat.

  Definition pre (c : cursor) : addr := fst (fst (c_at c)).
  Definition rem (c : cursor) : list (key * V) := last_range (pre c, q_since q, 0) (c_at c) log.
  Lemma hits_le (l : list (key * V)) : (List.length (flat_map view l) <= List.length l)%nat.
  Proof. induction l as [|x l IH]; auto. cbn [flat_map List.length]. rewrite app_length. pose proof (VIEW x). lia. Qed.
  Lemma rem_pre c r : In r (rem c) -> fst (fst (fst r)) = pre c /\ q_since q <= k_height (fst r).
  Proof.
    intros I. apply (last_range_in _ _ _ _ A) in I. destruct I as (_ & L & G). unfold pre in *. destruct (c_at c) as ((p, h), t).
    destruct r as (((p', h'), t'), v). unfold k_height. cbn [fst snd] in *.
    apply klt_spec in L. rewrite klt_spec in G.
    assert (p = p').
    { destruct L as [L|(-> & _)]; auto. destruct G as [[= -> _ _]|[G|(-> & _)]]; auto.
      exfalso. rewrite (tc_opp bytescmp_total), L in G. discriminate. }
    subst p'. split; auto. destruct G as [[= -> _]|[G|(_ & [G|(-> & _)])]]; try lia.
    rewrite (cmp_refl bytescmp_total) in G. discriminate.
  Qed.
  Lemma rem_log c : incl (rem c) log.
  Proof. intros r I. apply (last_range_in _ _ _ _ A) in I. apply I. Qed.

  Lemma advance_ok c rows c' done : advance log view q c = (rows, c', done) ->
    rem c = rows ++ rem c' /\ pre c' = pre c /\
    c_count c' = (c_count c + N.of_nat (List.length (flat_map view rows))) mod 2 ^ 32 /\
    (rows = [] -> c_at c' = c_at c) /\ (forall l x, rows = l ++ [x] -> c_at c' = fst x) /\
    (done = false -> (List.length rows = 100)%nat /\ c_count c' < u32 (q_limit q)) /\
    (done = true -> rem c' = [] \/ (u32 (q_limit q) <= c_count c' /\ rows <> [])).
  Proof.
    unfold advance. set (rs := firstn chunk_size _). intros E.
    assert (E1 : rows = rs) by congruence. assert (E2 : c' = mk_cursor (last (map fst rs) (c_at c))
       ((c_count c + N.of_nat (List.length (flat_map view rs))) mod 2 ^ 32)) by congruence.
    assert (E3 : done = (List.length rs <? chunk_size)%nat || (u32 (q_limit q) <=? c_count c')) by (rewrite E2; cbn [c_count]; congruence).
    clear E. rewrite <- E1 in *. assert (R : rem c = rows ++ skipn chunk_size (rem c)) by (rewrite E1; symmetry; apply firstn_skipn).
    assert (K1 : rows = [] -> c_at c' = c_at c) by (intros ->; rewrite E2; reflexivity).
    assert (K2 : forall l x, rows = l ++ [x] -> c_at c' = fst x) by (intros l x ->; rewrite E2, map_app; cbn [map c_at]; apply last_last).
    assert (LEN : (List.length rows < chunk_size)%nat -> skipn chunk_size (rem c) = []).
    { intros L. apply skipn_all2. destruct (Nat.le_gt_cases (List.length (rem c)) chunk_size) as [?|G]; auto.
      rewrite E1 in L. change rs with (firstn chunk_size (rem c)) in L. rewrite firstn_length in L. lia. }
    assert (PR : pre c' = pre c /\ rem c' = skipn chunk_size (rem c)).
    { destruct (rows) as [|r0 rows0] eqn:ER.
      - cbn [app] in R. split; [unfold pre; rewrite K1 by auto; auto|]. rewrite <- R. unfold rem, pre. rewrite K1 by auto. auto.
      - assert (EX : exists l x, rows = l ++ [x]).
        { rewrite ER. destruct (exists_last (l:=r0 :: rows0)) as (l & x & Q); [discriminate|]. eauto. }
        destruct EX as (l & x & Q). assert (C' : c_at c' = fst x) by (apply (K2 l); congruence).
        rewrite <- ER, Q, <- app_assoc in R. cbn [app] in R.
        assert (I : In x (rem c)) by (rewrite R; apply in_or_app; right; left; auto).
        apply rem_pre in I. destruct I as (I & _). assert (P : pre c' = pre c) by (unfold pre at 1; rewrite C'; auto).
        split; auto. unfold rem at 1. rewrite P, C'. eapply last_range_below; eauto. }
    destruct PR as (P & RM). rewrite RM. split; auto. split; auto. split; [rewrite E2; reflexivity|]. split; auto. split; auto. split.
    - intros D. rewrite D in E3. symmetry in E3. apply orb_false_iff in E3. destruct E3 as (D1 & D2). apply Nat.ltb_ge in D1. apply N.leb_gt in D2.
      split; auto. assert ((List.length rows <= chunk_size)%nat) by (rewrite E1; apply firstn_le_length). unfold chunk_size in *. lia.
    - intros D. rewrite D in E3. symmetry in E3. apply orb_true_iff in E3. destruct E3 as [D1|D1]; [left; apply LEN, Nat.ltb_lt; auto|].
      destruct rows as [|r0 rows0]; [left; apply LEN; cbn; unfold chunk_size; lia|]. right. apply N.leb_le in D1. split; auto. discriminate.
  Qed.

  Lemma rest_ok c : q_since q <= k_height (c_at c) -> exists rest, rem c = rest_of_block log (c_at c) ++ rest /\
    (forall r, In r rest -> k_height (fst r) < k_height (c_at c)) /\ (forall r, In r (rest_of_block log (c_at c)) -> k_height (fst r) = k_height (c_at c)).
  Proof.
    intros S. pose (p := fun r : key * V => negb (key_ltb (fst r) (fst (c_at c), 0))).
    destruct (up_split p (rem c)) as (_ & E).
    - apply last_range_desc; auto.
    - intros x y Hy L. unfold p in *. apply negb_true_iff in Hy. apply negb_true_iff. apply key_ltb_false in Hy. apply key_ltb_false. right.
      destruct Hy as [<-|Hy]; auto. eapply (klt_trans KT); eauto.
    - assert (Q : filter p (rem c) = rest_of_block log (c_at c)).
      { unfold rem, rest_of_block. rewrite !last_range_filter, filter_filter by auto. apply filter_ext. intros r. unfold p.
        destruct (key_ltb (fst r) (c_at c)) eqn:E1; cbn [andb]; auto.
        destruct (key_ltb (fst r) (fst (c_at c), 0)) eqn:E2; cbn [negb]; [apply andb_false_r|]. rewrite andb_true_r. apply negb_true_iff.
        apply key_ltb_false in E2. apply key_ltb_false. unfold pre. destruct (c_at c) as ((a, h), t). cbn [fst snd k_height] in *. unfold k_height in S. cbn [fst snd] in S.
        destruct (N.eq_dec (q_since q) h) as [->|NE]; auto. right.
        destruct r as (((a', h'), t'), v). cbn [fst snd] in *. destruct E2 as [[= -> -> ->]|E2]; apply klt_spec.
        - right. split; auto. left. lia.
        - apply klt_spec in E2. destruct E2 as [?|(-> & E2)]; auto. right. split; auto. lia. }
      rewrite Q in E. exists (filter (fun x => negb (p x)) (rem c)). split; auto. split.
      + intros r I. apply filter_In in I. destruct I as (I & N). unfold p in N. rewrite negb_involutive in N. apply key_ltb_iff in N.
        apply rem_pre in I. destruct I as (I & _). unfold pre in I. destruct (c_at c) as ((a, h), t), r as (((a', h'), t'), v). unfold k_height. cbn [fst snd] in *.
        apply klt_spec in N. subst a'. destruct N as [N|(_ & [N|(_ & N)])]; try lia. rewrite (cmp_refl bytescmp_total) in N. discriminate.
      + intros r I. rewrite <- Q in I. apply filter_In in I. destruct I as (I & N). unfold p in N. apply negb_true_iff, key_ltb_false in N.
        pose proof (rem_pre _ _ I) as (I' & _). apply (last_range_in _ _ _ _ A) in I. destruct I as (_ & L & _). unfold pre in *.
        destruct (c_at c) as ((a, h), t), r as (((a', h'), t'), v). unfold k_height. cbn [fst snd] in *. subst a'.
        apply klt_spec in L. destruct N as [[= -> _]|N]; auto. apply klt_spec in N.
        destruct L as [L|(_ & L)]; [rewrite (cmp_refl bytescmp_total) in L; discriminate|].
        destruct N as [N|(_ & N)]; [rewrite (cmp_refl bytescmp_total) in N; discriminate|]. lia.
  Qed.
  Lemma k_height_mono (x y : key * V) : fst (fst (fst x)) = fst (fst (fst y)) -> klt key_cmp (fst y) (fst x) -> k_height (fst y) <= k_height (fst x).
  Proof.
    destruct x as (((a, h), t), v), y as (((a', h'), t'), v'). unfold k_height. cbn [fst snd]. intros <- L. apply klt_spec in L.
    destruct L as [L|(_ & L)]; [rewrite (cmp_refl bytescmp_total) in L; discriminate|lia].
  Qed.

  (** what is read of an address: a part of its rows from the top *)
  Definition part (c : cursor) (gr : list (key * V) * list (key * V)) : Prop := rem c = fst gr ++ snd gr.
  (** all of them, or enough of them up to the end of a block *)
  Definition enough (c : cursor) (gr : list (key * V) * list (key * V)) : Prop :=
    part c gr /\ (snd gr = [] \/ (u32 (q_limit q) <= c_count c + N.of_nat (List.length (flat_map view (fst gr))) /\ fst gr <> [] /\
      (finish = true -> forall x y, In x (fst gr) -> In y (snd gr) -> k_height (fst y) < k_height (fst x)))).
  (** a cursor that has not counted too far *)
  Definition fine (c : cursor) : Prop := c_count c + N.of_nat (List.length (rem c)) < 2 ^ 31 /\ q_since q <= k_height (c_at c).

  Lemma fine_advance c rows c' done : advance log view q c = (rows, c', done) -> fine c -> fine c' /\ c_count c' = c_count c + N.of_nat (List.length (flat_map view rows)).
  Proof.
    intros E (F1 & F2). destruct (advance_ok _ _ _ _ E) as (R & P & C & K1 & K2 & _). pose proof (hits_le rows) as HL.
    rewrite R, app_length in F1. assert (CC : c_count c' = c_count c + N.of_nat (List.length (flat_map view rows))) by (rewrite C; apply N.mod_small; lia).
    split; auto. split; [rewrite CC; lia|]. destruct rows as [|r0 rs] eqn:ER; [rewrite K1; auto|].
    destruct (exists_last (l:=r0 :: rs)) as (l & x & Q); [discriminate|]. rewrite (K2 l x) by auto.
    assert (I : In x (rem c)) by (rewrite R, Q; apply in_or_app; left; apply in_or_app; right; left; auto). apply rem_pre in I. apply I.
  Qed.

  Lemma round_part cs : forall rows left, round log view finish q cs = (rows, left) -> Forall (fun c => q_since q <= k_height (c_at c)) cs ->
    Forall (fun c => q_since q <= k_height (c_at c)) left /\
    exists grs, Forall2 part cs (map (fun x => (fst x, snd x)) grs) /\ Permutation rows (List.concat (map fst grs)) /\
      forall prs, Forall2 part left prs -> exists prs', Forall2 part cs prs' /\ Permutation (rows ++ List.concat (map fst prs)) (List.concat (map fst prs')).
  Proof.
    induction cs as [|c cs IH]; cbn [round]; intros rows left E S.
    - assert (rows = []) by congruence. assert (left = []) by congruence. subst. split; auto. exists []. split; [constructor|]. split; auto.
      intros prs F. inversion F. subst. exists []. split; constructor.
    - destruct (advance log view q c) as ((rs, c'), done) eqn:EA. destruct (round log view finish q cs) as (more, lf) eqn:ER.
      inversion_clear S as [|? ? S0 SS]. destruct (IH _ _ eq_refl SS) as (SL & grs & G1 & G2 & G3).
      destruct (advance_ok _ _ _ _ EA) as (R & P & C & K1 & K2 & _).
      assert (S' : q_since q <= k_height (c_at c')).
      { destruct rs as [|r0 rs0]; [rewrite K1; auto|]. destruct (exists_last (l:=r0 :: rs0)) as (l & x & Q); [discriminate|]. rewrite (K2 l x) by auto.
        assert (I : In x (rem c)) by (rewrite R, Q; apply in_or_app; left; apply in_or_app; right; left; auto). apply rem_pre in I. apply I. }
      destruct done.
      + assert (rows = rs ++ (if finish then rest_of_block log (c_at c') else []) ++ more) by congruence. assert (left = lf) by congruence. subst rows left. clear E.
        split; auto. destruct (rest_ok c' S') as (rest & RR & _ & _).
        assert (EX : exists r2, part c (rs ++ (if finish then rest_of_block log (c_at c') else []), r2)).
        { destruct finish.
          - exists rest. unfold part. cbn [fst snd]. rewrite R, RR. apply app_assoc.
          - exists (rem c'). unfold part. cbn [fst snd]. rewrite app_nil_r. auto. }
        destruct EX as (r2 & PC). exists ((rs ++ (if finish then rest_of_block log (c_at c') else []), r2) :: grs).
        split; [constructor; auto|]. split; [cbn [map fst List.concat]; rewrite <- app_assoc; apply Permutation_app_head, Permutation_app_head; auto|].
        intros prs F. destruct (G3 _ F) as (prs' & F' & PP). exists ((rs ++ (if finish then rest_of_block log (c_at c') else []), r2) :: prs'). split; [constructor; auto|].
        cbn [map fst List.concat]. rewrite <- !app_assoc. apply Permutation_app_head, Permutation_app_head. auto.
      + assert (rows = rs ++ more) by congruence. assert (left = c' :: lf) by congruence. subst rows left. clear E. split; [constructor; auto|].
        exists ((rs, rem c') :: grs). split; [constructor; auto|]. split; [cbn [map fst List.concat]; apply Permutation_app_head; auto|].
        intros prs F. inversion F as [|? gr ? prs0 F0 F1]. subst. destruct (G3 _ F1) as (prs' & F' & PP). destruct gr as (g, r). unfold part in F0. cbn [fst snd] in F0.
        exists ((rs ++ g, r) :: prs'). split; [constructor; auto; unfold part; cbn [fst snd]; rewrite R, F0; apply app_assoc|].
        cbn [map fst List.concat]. rewrite <- !app_assoc. apply Permutation_app_head. rewrite <- PP, !app_assoc. apply Permutation_app_tail, Permutation_app_comm.
  Qed.

  Lemma rounds_part fuel : forall cs s rows, rounds log view finish q fuel cs s = Some rows -> Forall (fun c => q_since q <= k_height (c_at c)) cs ->
    exists prs, Forall2 part cs prs /\ Permutation rows (List.concat (map fst prs)).
  Proof.
    assert (NIL : forall cs, exists prs, Forall2 part cs prs /\ Permutation (@nil (key * V)) (List.concat (map fst prs))).
    { induction cs as [|c cs (prs & F & P)]; [exists []; split; auto; constructor|]. exists (([], rem c) :: prs). split; [constructor; auto; reflexivity|]. exact P. }
    induction fuel as [|fuel IH]; intros cs s rows E S; destruct cs as [|c cs].
    - exists []. cbn in E. injection E as <-. split; constructor.
    - cbn [rounds] in E. destruct (negb _); [|discriminate]. injection E as <-. apply NIL.
    - exists []. cbn in E. injection E as <-. split; constructor.
    - cbn [rounds] in E. destruct (negb _); [injection E as <-; apply NIL|].
      destruct (round log view finish q (c :: cs)) as (rs, left) eqn:ER. destruct (round_part _ _ _ ER S) as (SL & _ & _ & _ & G).
      destruct (rounds _ _ _ _ _ left _) as [l|] eqn:EL; [|discriminate]. injection E as <-.
      destruct (IH _ _ _ EL SL) as (prs & F & P). destruct (G _ F) as (prs' & F' & P'). exists prs'. split; auto. rewrite P. auto.
  Qed.

  Lemma count_app (l l' : list (key * V)) : N.of_nat (List.length (flat_map view (l ++ l'))) =
    N.of_nat (List.length (flat_map view l)) + N.of_nat (List.length (flat_map view l')).
  Proof. rewrite flat_map_app, app_length. lia. Qed.

  Lemma round_enough cs : forall rows left, round log view finish q cs = (rows, left) -> Forall fine cs ->
    Forall fine left /\
    (forall k, Forall (fun c => List.length (rem c) < S k)%nat cs -> Forall (fun c => List.length (rem c) < k)%nat left) /\
    (List.length rows + List.length (List.concat (map rem left)) <= List.length (List.concat (map rem cs)))%nat /\
      forall prs, Forall2 enough left prs -> exists prs', Forall2 enough cs prs' /\ Permutation (rows ++ List.concat (map fst prs)) (List.concat (map fst prs')).
  Proof.
    induction cs as [|c cs IH]; cbn [round]; intros rows left E S.
    - assert (rows = []) by congruence. assert (left = []) by congruence. subst. split; auto. split; auto. split; auto.
      intros prs F. inversion F. subst. exists []. split; constructor.
    - destruct (advance log view q c) as ((rs, c'), done) eqn:EA. destruct (round log view finish q cs) as (more, lf) eqn:ER.
      inversion_clear S as [|? ? S0 SS]. destruct (IH _ _ eq_refl SS) as (SL & KL & LEN & G3).
      destruct (advance_ok _ _ _ _ EA) as (R & P & C & K1 & K2 & D1 & D2). destruct (fine_advance _ _ _ _ EA S0) as (F' & C').
      pose proof (last_range_desc log (pre c, q_since q, 0) (c_at c) A) as DS. change (desc (rem c)) in DS.
      destruct done.
      + assert (rows = rs ++ (if finish then rest_of_block log (c_at c') else []) ++ more) by congruence. assert (left = lf) by congruence. subst rows left. clear E.
        split; auto. destruct (rest_ok c') as (rest & RR & R1 & R2); [apply F'|].
        assert (EX : exists r2, enough c (rs ++ (if finish then rest_of_block log (c_at c') else []), r2)).
        { destruct (D2 eq_refl) as [Z|(D2' & NE)].
          - exists []. split; [|left; reflexivity]. unfold part. cbn [fst snd]. rewrite app_nil_r, R, Z in *. symmetry in RR. apply app_eq_nil in RR.
            destruct RR as (-> & _). destruct finish; auto.
          - exists (if finish then rest else rem c'). split.
            + unfold part. cbn [fst snd]. rewrite R. destruct finish; [rewrite RR; apply app_assoc|rewrite app_nil_r; auto].
            + right. cbn [fst snd]. rewrite count_app. split; [lia|]. split; [destruct rs; [congruence|discriminate]|].
              intros -> x y Hx Hy. apply R1 in Hy. assert (HQ : k_height (c_at c') <= k_height (fst x)); [|lia].
              apply in_app_or in Hx. destruct Hx as [Hx|Hx]; [|rewrite (R2 _ Hx); lia].
              destruct (exists_last NE) as (l & z & Q). rewrite (K2 l z Q). rewrite Q in Hx. apply in_app_or in Hx.
              destruct Hx as [Hx|[<-|[]]]; [|lia]. apply k_height_mono.
              * transitivity (pre c); [|symmetry]; apply rem_pre; rewrite R, Q; apply in_or_app; left; apply in_or_app; [left|right; left]; auto.
              * rewrite R, Q, <- app_assoc in DS. apply desc_app_inv in DS. apply DS; auto. left. auto. }
        destruct EX as (r2 & PC). split; [|split].
        * intros k F. inversion_clear F as [|? ? F0 F1]. apply KL; auto.
        * cbn [map List.concat]. destruct PC as (PC & _). unfold part in PC. cbn [fst snd] in PC. rewrite PC, !app_length. rewrite app_length in LEN || idtac. lia.
        * intros prs F. destruct (G3 _ F) as (prs' & F2 & PP). exists ((rs ++ (if finish then rest_of_block log (c_at c') else []), r2) :: prs'). split; [constructor; auto|].
          cbn [map fst List.concat]. rewrite <- !app_assoc. apply Permutation_app_head, Permutation_app_head. auto.
      + assert (rows = rs ++ more) by congruence. assert (left = c' :: lf) by congruence. subst rows left. clear E. destruct (D1 eq_refl) as (L100 & LT).
        split; [constructor; auto|]. split; [|split].
        * intros k F. inversion_clear F as [|? ? F0 F1]. constructor; auto. rewrite R, app_length in F0. lia.
        * cbn [map List.concat]. rewrite R, !app_length. lia.
        * intros prs F. inversion F as [|? gr ? prs0 F0 F1]. subst. destruct (G3 _ F1) as (prs' & F2 & PP). destruct gr as (g, r). destruct F0 as (F0 & F0').
          unfold part in F0. cbn [fst snd] in F0, F0'.
          exists ((rs ++ g, r) :: prs'). split.
          { constructor; auto. split; [unfold part; cbn [fst snd]; rewrite R, F0; apply app_assoc|]. cbn [fst snd].
            destruct F0' as [->|(F3 & F4 & F5)]; auto. right. rewrite count_app. split; [lia|]. split; [destruct rs; [auto|discriminate]|].
            intros FF x y Hx Hy. apply in_app_or in Hx. destruct Hx as [Hx|Hx]; [|auto]. destruct g as [|g0 g]; [congruence|].
            assert (k_height (fst y) < k_height (fst g0)) by (apply F5; auto; left; auto).
            assert (k_height (fst g0) <= k_height (fst x)); [|lia]. apply k_height_mono.
            - transitivity (pre c); [|symmetry]; apply rem_pre; rewrite R, F0; apply in_or_app; [left; auto|right; left; auto].
            - rewrite R, F0 in DS. apply desc_app_inv in DS. apply DS; auto. left. auto. }
          cbn [map fst List.concat]. rewrite <- !app_assoc. apply Permutation_app_head. rewrite <- PP, !app_assoc. apply Permutation_app_tail, Permutation_app_comm.
  Qed.

  Lemma rounds_enough fuel : forall cs s, q_max_search q = 0 -> Forall fine cs -> s + N.of_nat (List.length (List.concat (map rem cs))) < 2 ^ 31 ->
    Forall (fun c => List.length (rem c) < fuel)%nat cs ->
    exists rows prs, rounds log view finish q fuel cs s = Some rows /\ Forall2 enough cs prs /\ Permutation rows (List.concat (map fst prs)).
  Proof.
    induction fuel as [|fuel IH]; intros cs s M F B FU; destruct cs as [|c cs].
    - exists [], []. repeat split; auto; constructor.
    - inversion_clear FU as [|? ? X _]. lia.
    - exists [], []. repeat split; auto; constructor.
    - cbn [rounds]. rewrite M. change (if 0 =? 0 then 2 ^ 64 - 1 else 0) with (2 ^ 64 - 1). replace (s <? 2 ^ 64 - 1) with true by (symmetry; apply N.ltb_lt; lia).
      cbn [negb]. destruct (round log view finish q (c :: cs)) as (rs, left) eqn:ER. destruct (round_enough _ _ _ ER F) as (FL & KL & LEN & G).
      destruct (IH left (s + N.of_nat (List.length rs)) M FL) as (rows & prs & E1 & E2 & E3); [lia|apply KL; auto|].
      rewrite E1. destruct (G _ E2) as (prs' & F' & P'). exists (rs ++ rows), prs'. split; auto. split; auto. rewrite E3. auto.
  Qed.
End SCAN.

(** ** Sorting and cutting *)
Lemma optcmp_total : TotalCmp optcmp.
Proof.
  split.
  - intros [x|] [y|]; cbn; try (split; congruence). rewrite (tc_eq bytescmp_total). split; congruence.
  - intros [x|] [y|]; cbn; auto. apply (tc_opp bytescmp_total).
  - intros [x|] [y|] [z|]; cbn; try congruence. apply (tc_trans bytescmp_total).
Qed.
Lemma rank_total : TotalCmp rank_cmp.
Proof. repeat apply lexcmp_total; auto using bytescmp_total, Ncompare_total, optcmp_total. Qed.
Lemma rank_inj x y : entry_rank x = entry_rank y -> x = y.
Proof.
  destruct x as [h t k c a m v], y as [h' t' k' c' a' m' v']. unfold entry_rank.
  cbn [e_height e_txid e_kind e_contract e_address e_memo e_amount]. intros [= -> -> K -> -> -> ->].
  f_equal. destruct k, k'; cbn in K; congruence.
Qed.
Definition not_below (x y : entry) : Prop := above y x = false.
Lemma above_height x y : above y x = false -> e_height y <= e_height x.
Proof.
  unfold above, rank_cmp, lexcmp at 1. cbn [entry_rank fst snd]. destruct (N.compare_spec (e_height y) (e_height x)) as [->|L|L]; intros E; try lia; discriminate.
Qed.
Lemma above_trans x y z : above y x = false -> above z y = false -> above z x = false.
Proof.
  unfold above. intros E1 E2. destruct (rank_cmp (entry_rank z) (entry_rank x)) eqn:E; auto. exfalso.
  apply (cmp_gt_lt rank_total) in E.
  destruct (klt_total rank_total (entry_rank y) (entry_rank x)) as [L|[Q|L]].
  - assert (L' : klt rank_cmp (entry_rank y) (entry_rank z)) by (eapply (klt_trans rank_total); eauto).
    apply (cmp_gt_lt rank_total) in L'. rewrite L' in E2. discriminate.
  - rewrite <- Q in E. apply (cmp_gt_lt rank_total) in E. rewrite E in E2. discriminate.
  - apply (cmp_gt_lt rank_total) in L. rewrite L in E1. discriminate.
Qed.
Lemma above_asym x y : above x y = true -> above y x = false.
Proof.
  unfold above. destruct (rank_cmp (entry_rank x) (entry_rank y)) eqn:E; try discriminate. intros _.
  rewrite (tc_opp rank_total), E. reflexivity.
Qed.
Lemma put_perm x l : Permutation (put x l) (x :: l).
Proof. induction l as [|y l IH]; cbn [put]; auto. destruct (above x y); auto. rewrite IH. apply perm_swap. Qed.
Lemma sort_perm l : Permutation (sort l) l.
Proof. induction l as [|x l IH]; cbn; auto. rewrite put_perm. auto. Qed.
Lemma put_sorted x l : StronglySorted not_below l -> StronglySorted not_below (put x l).
Proof.
  induction 1 as [|y l S IH F]; cbn [put]; [constructor; constructor|]. destruct (above x y) eqn:E.
  - constructor; [constructor; auto|]. constructor; [apply above_asym; auto|].
    rewrite Forall_forall in F |- *. intros z Hz. eapply above_trans; [apply above_asym; eauto|]. apply F; auto.
  - constructor; auto. rewrite Forall_forall in F |- *. intros z Hz. apply (Permutation_in _ (put_perm x l)) in Hz. destruct Hz as [<-|Hz]; auto.
Qed.
Lemma sort_sorted l : StronglySorted not_below (sort l).
Proof. induction l as [|x l IH]; [constructor|]. apply put_sorted; auto. Qed.
Lemma sorted_newest l : StronglySorted not_below l -> newest_first l.
Proof. induction 1 as [|x l S IH F]; constructor; auto. rewrite Forall_forall in F |- *. intros y Hy. apply above_height, F; auto. Qed.

Lemma newest_filter f l : newest_first l -> newest_first (filter f l).
Proof.
  induction 1 as [|x l S1 IH F]; cbn [filter]; [constructor|]. destruct (f x); auto. constructor; auto.
  rewrite Forall_forall in F |- *. intros y Hy. apply filter_In in Hy. apply F, Hy.
Qed.
Lemma later_perm l l' e : Permutation l l' -> later l e = later l' e.
Proof. intros P. unfold later. f_equal. induction P; cbn [filter]; auto; try (destruct (e_height e <? e_height x)); cbn [List.length]; auto;
  try (destruct (e_height e <? e_height y)); cbn [List.length]; congruence. Qed.
Lemma filter_perm {T} (f : T -> bool) l l' : Permutation l l' -> Permutation (filter f l) (filter f l').
Proof. induction 1; cbn [filter]; auto; try (destruct (f x)); try (destruct (f y)); auto; try constructor. eapply Permutation_trans; eauto. Qed.
Lemma shown_perm n l l' : Permutation l l' -> Permutation (shown n l) (shown n l').
Proof.
  intros P. unfold shown. destruct (n <? 0)%Z; auto. rewrite (filter_perm _ _ _ P).
  erewrite filter_ext; [apply Permutation_refl|]. intros e. cbn. rewrite (later_perm _ _ e P). auto.
Qed.
Lemma newest_app l1 l2 : newest_first (l1 ++ l2) -> newest_first l1 /\ newest_first l2 /\ forall x y, In x l1 -> In y l2 -> e_height y <= e_height x.
Proof.
  induction l1 as [|a l1 IH]; cbn [app]; intros D; [split; [constructor|]; split; auto; intros ? ? []|].
  inversion_clear D as [|? ? D' F]. destruct (IH D') as (A & B & C). rewrite Forall_forall in F.
  split; [constructor; auto; apply Forall_forall; intros; apply F, in_or_app; auto|]. split; auto.
  intros x y [<-|Hx] Hy; auto. apply F, in_or_app; auto.
Qed.
Lemma later_app l1 l2 e : later (l1 ++ l2) e = later l1 e + later l2 e.
Proof. unfold later. rewrite filter_app, app_length. lia. Qed.
Lemma later_le l e : later l e <= N.of_nat (List.length l).
Proof. unfold later. induction l as [|x l IH]; cbn [filter List.length]; [lia|]. destruct (e_height e <? e_height x); cbn [List.length]; lia. Qed.
Lemma later_none l e : (forall x, In x l -> e_height x <= e_height e) -> later l e = 0.
Proof.
  unfold later. induction l as [|x l IH]; intros F; cbn [filter List.length]; auto.
  replace (e_height e <? e_height x) with false by (symmetry; apply N.ltb_ge, F; left; auto). apply IH. intros; apply F; right; auto.
Qed.
Lemma later_all l e : (forall x, In x l -> e_height e < e_height x) -> later l e = N.of_nat (List.length l).
Proof.
  unfold later. induction l as [|x l IH]; intros F; cbn [filter List.length]; auto.
  replace (e_height e <? e_height x) with true by (symmetry; apply N.ltb_lt, F; left; auto). cbn [List.length]. rewrite !Nat2N.inj_succ. f_equal. apply IH. intros; apply F; right; auto.
Qed.
Lemma filter_all {T} (f : T -> bool) l : (forall x, In x l -> f x = true) -> filter f l = l.
Proof. induction l as [|x l IH]; intros F; cbn [filter]; auto. rewrite F by (left; auto). f_equal. apply IH. intros; apply F; right; auto. Qed.
Lemma filter_no {T} (f : T -> bool) l : (forall x, In x l -> f x = false) -> filter f l = [].
Proof. induction l as [|x l IH]; intros F; cbn [filter]; auto. rewrite F by (left; auto). apply IH. intros; apply F; right; auto. Qed.
Lemma take_while_split {T} (f : T -> bool) l : exists l', l = take_while f l ++ l' /\ (forall x, In x (take_while f l) -> f x = true) /\ match l' with [] => True | x :: _ => f x = false end.
Proof.
  induction l as [|x l (l' & E & F & G)]; [exists []; repeat split; auto; intros ? []|]. cbn [take_while]. destruct (f x) eqn:Q.
  - exists l'. split; [cbn [app]; congruence|]. split; auto. intros y [<-|Hy]; auto.
  - exists (x :: l). split; auto.
Qed.

Lemma cut_shown n l : (n <> 0)%Z -> newest_first l -> cut n l = shown n l.
Proof.
  intros NZ S. unfold cut, shown. destruct (Z.ltb_spec n 0) as [NEG|POS].
  - replace (0 <? n)%Z with false by (symmetry; apply Z.ltb_ge; lia). reflexivity.
  - replace (0 <? n)%Z with true by (symmetry; apply Z.ltb_lt; lia). cbn [andb]. destruct (Z.ltb_spec n (Z.of_nat (List.length l))) as [LT|GE].
    + set (i := Z.to_nat (n - 1)). assert (LI : (i < List.length l)%nat) by (unfold i; lia). assert (NI : Z.to_N n = N.of_nat i + 1) by (unfold i; lia).
      rewrite NI. clearbody i. clear LT NI POS NZ n.
      pose proof (firstn_length i l) as FL. rewrite Nat.min_l in FL by lia. pose proof (firstn_skipn i l) as FS.
      destruct (skipn i l) as [|x rest]; [exfalso; apply (f_equal (@List.length _)) in FS; rewrite app_length in FS; cbn in FS; lia|].
      generalize dependent (firstn i l). intros A FL FS. subst l. clear LI.
      apply newest_app in S. destruct S as (SA & SR & SAR). inversion_clear SR as [|? ? SR' FR]. rewrite Forall_forall in FR.
      destruct (take_while_split (fun y => e_height y =? e_height x) (x :: rest)) as (tl & E & F & G).
      set (B := take_while (fun y => e_height y =? e_height x) (x :: rest)) in *.
      assert (IB : In x B) by (unfold B; cbn [take_while]; rewrite N.eqb_refl; left; auto). clearbody B.
      rewrite E, filter_app, filter_app.
      assert (TL : forall y, In y tl -> e_height y < e_height x).
      { intros y Hy. assert (NT : newest_first tl).
        { assert (NR : newest_first (x :: rest)) by (constructor; auto; apply Forall_forall; auto). rewrite E in NR. apply newest_app in NR. apply NR. }
        destruct tl as [|z tl]; [destruct Hy|]. apply N.eqb_neq in G.
        assert (In z (x :: rest)) by (rewrite E; apply in_or_app; right; left; auto).
        assert (e_height z <= e_height x) by (destruct H as [->|H]; [lia|apply FR; auto]).
        destruct Hy as [<-|Hy]; [lia|]. inversion_clear NT as [|? ? _ FZ]. rewrite Forall_forall in FZ. apply FZ in Hy. lia. }
      assert (HB : forall y, In y B -> e_height y = e_height x) by (intros y Hy; apply N.eqb_eq, F; auto).
      rewrite (filter_all _ A), (filter_all _ B), (filter_no _ tl), app_nil_r; auto.
      * intros y Hy. apply N.ltb_ge. rewrite !later_app. rewrite (later_all A), (later_all B).
        -- assert (1 <= List.length B)%nat by (destruct B; [destruct IB|cbn; lia]). lia.
        -- intros z Hz. rewrite (HB z Hz). auto.
        -- intros z Hz. assert (e_height x <= e_height z) by (apply SAR; auto; left; auto). apply TL in Hy. lia.
      * intros y Hy. apply N.ltb_lt. rewrite !later_app, (later_none B), (later_none tl).
        -- pose proof (later_le A y). lia.
        -- intros z Hz. apply TL in Hz. rewrite (HB y Hy). lia.
        -- intros z Hz. rewrite (HB z Hz), (HB y Hy). lia.
      * intros y Hy. apply N.ltb_lt. rewrite !later_app, (later_none B), (later_none tl).
        -- assert (L : later A y < N.of_nat (List.length A)); [|lia]. unfold later. clear -Hy. induction A as [|a A IH]; [destruct Hy|].
           cbn [filter]. destruct Hy as [->|Hy].
           ++ rewrite N.ltb_irrefl. pose proof (later_le A y) as Q. unfold later in Q. cbn [List.length]. lia.
           ++ specialize (IH Hy). destruct (e_height y <? e_height a); cbn [List.length]; lia.
        -- intros z Hz. apply TL in Hz. assert (e_height x <= e_height y) by (apply SAR; auto; left; auto). lia.
        -- intros z Hz. rewrite (HB z Hz). apply SAR; auto. left; auto.
    + rewrite filter_all; auto. intros y Hy. apply N.ltb_lt. assert (L : later l y < N.of_nat (List.length l)); [|lia].
      unfold later. clear -Hy. induction l as [|a A IH]; [destruct Hy|].
      cbn [filter]. destruct Hy as [->|Hy].
      * rewrite N.ltb_irrefl. pose proof (later_le A y) as Q. unfold later in Q. cbn [List.length]. lia.
      * specialize (IH Hy). destruct (e_height y <? e_height a); cbn [List.length]; lia.
Qed.
(** leaving out entries with enough entries of later blocks does not matter *)
Lemma shown_less n L M : (forall y, In y M -> (0 < n)%Z /\ Z.to_N n <= later L y) -> Permutation (shown n L) (shown n (L ++ M)).
Proof.
  intros H. unfold shown. destruct (Z.ltb_spec n 0) as [NEG|POS].
  - destruct M as [|y M]; [rewrite app_nil_r; auto|]. destruct (H y); [left; auto|lia].
  - rewrite filter_app, (filter_no _ M), app_nil_r.
    + erewrite filter_ext; [apply Permutation_refl|]. intros e. cbn beta. rewrite later_app.
      destruct (N.eq_dec (later M e) 0) as [->|NE]; [rewrite N.add_0_r; auto|].
      assert (EX : exists y, In y M /\ e_height e < e_height y).
      { unfold later in NE. destruct (filter _ M) as [|y l] eqn:E; [cbn in NE; lia|]. exists y.
        assert (I : In y (filter (fun x => e_height e <? e_height x) M)) by (rewrite E; left; auto). apply filter_In in I. destruct I as (I & Q). apply N.ltb_lt in Q. auto. }
      destruct EX as (y & Hy & LT). destruct (H y Hy) as (_ & LE).
      assert (later L y <= later L e).
      { unfold later. clear -LT. induction L as [|a L IH]; cbn [filter]; [lia|].
        destruct (N.ltb_spec (e_height y) (e_height a)); destruct (N.ltb_spec (e_height e) (e_height a)); cbn [List.length]; lia. }
      replace (later L e <? Z.to_N n) with false by (symmetry; apply N.ltb_ge; lia). symmetry. apply N.ltb_ge. lia.
    + intros y Hy. apply N.ltb_ge. rewrite later_app. destruct (H y Hy). lia.
Qed.

(** ** The queries *)
Lemma addr_eqb_iff a b : addr_eqb a b = true <-> a = b.
Proof. unfold addr_eqb. destruct (bytescmp a b) eqn:E; rewrite <- (tc_eq bytescmp_total), E; split; congruence. Qed.
Lemma passes_iff q e : passes q e = true <-> (forall k, q_kind q = Some k -> e_kind e = k) /\ (q_currency q <> [] -> In (e_contract e) (q_currency q)).
Proof.
  unfold passes. rewrite andb_true_iff. cut (forall a b c d : Prop, (a <-> c) -> (b <-> d) -> (a /\ b <-> c /\ d)); [intros CC; apply CC|tauto].
  - destruct (q_kind q) as [k|].
    + rewrite N.eqb_eq. split.
      * intros E k' [= <-]. destruct (e_kind e), k; cbn in E; congruence.
      * intros E. rewrite (E k); auto.
    + split; auto. congruence.
  - destruct (q_currency q) as [|c cs]; [split; auto; congruence|].
    rewrite existsb_exists. split.
    + intros (x & I & E) _. apply addr_eqb_iff in E. subst x. auto.
    + intros I. exists (e_contract e). split; [apply I; discriminate|]. apply addr_eqb_iff; auto.
Qed.
Lemma address_set_ok l : NoDup (address_set l) /\ forall a, In a (address_set l) <-> In a l.
Proof.
  unfold address_set.
  assert (G : forall l s, asorted bytescmp s -> asorted bytescmp (fold_left (fun s a => aset bytescmp a tt s) l s) /\
    forall a, In a (map fst (fold_left (fun s a => aset bytescmp a tt s) l s)) <-> In a l \/ In a (map fst s)).
  { clear l. induction l as [|x l IH]; intros s S; cbn [fold_left In]; [intuition|].
    destruct (IH (aset bytescmp x tt s)) as (A & B); [apply aset_sorted; auto using bytescmp_total|]. split; auto. intros a. rewrite B.
    rewrite !in_map_iff. split.
    - intros [?|((k, u) & <- & I)]; auto. apply aset_In in I; auto using bytescmp_total. destruct I as [(-> & _)|(_ & I)]; auto.
      right. exists (k, u). auto.
    - intros [[<-|?]|((k, u) & <- & I)]; auto.
      + right. exists (x, tt). split; auto. apply aset_In; auto using bytescmp_total.
      + right. exists (k, u). split; auto. apply aset_In; auto using bytescmp_total. cbn [fst].
        destruct u. destruct (klt_total bytescmp_total k x) as [Q|[Q|Q]]; auto; right; split; auto; intros ->; eapply (klt_irrefl bytescmp_total); eauto. }
  destruct (G l []) as (A & B); [constructor|]. split; [|intros a; rewrite B; cbn; tauto].
  clear -A. unfold asorted in A. induction A as [|x s A IH F]; constructor; auto. intros I. rewrite Forall_forall in F. apply F in I. eapply (klt_irrefl bytescmp_total); eauto.
Qed.

Section QUERY.
  Context {V : Type}.
  Variables (log : list (key * V)) (rowview : key * V -> list (key * entry)) (finish : bool) (q : query) (ps : list addr).
  Hypothesis A : asorted key_cmp log.
  Hypothesis SIZE : N.of_nat (List.length log) < 2 ^ 31.
  Hypothesis TICKETS : forall r, In r log -> snd (fst r) < 2 ^ 32 - 1.
  Hypothesis VIEW : forall r, (List.length (rowview r) <= 1)%nat.
  Hypothesis HEIGHT : forall r x, In r log -> In x (rowview r) -> e_height (snd x) = k_height (fst r).
  Hypothesis INJ : forall r r' x, In r log -> In r' log -> In x (rowview r) -> In x (rowview r') -> r = r'.
  Hypothesis ND : NoDup ps.
  Hypothesis RANGE : q_since q <= q_until q.
  Hypothesis LIMIT : limit_ok q.

  Definition view (r : key * V) : list entry := map snd (rowview r).
  Definition start (a : addr) : cursor := mk_cursor ((a, q_until q), 2 ^ 32 - 1) 0.
  Definition all : list (key * V) := List.concat (map (rem log q) (map start ps)).
  Lemma rem_start a r : In r (rem log q (start a)) <-> In r log /\ fst (fst (fst r)) = a /\ q_since q <= k_height (fst r) <= q_until q.
  Proof.
    clear SIZE VIEW HEIGHT INJ ND RANGE LIMIT. split.
    - intros I. pose proof (rem_pre log q A _ _ I) as (P & S). pose proof (rem_log log q A _ _ I). split; auto. split; auto. split; auto.
      apply (last_range_in _ _ _ _ A) in I. destruct I as (_ & L & _). unfold pre in P. cbn [start c_at] in *. destruct r as (((p, h), t), v). unfold k_height. cbn [fst snd] in *.
      subst p. apply klt_spec in L. destruct L as [L|(_ & L)]; [rewrite (cmp_refl bytescmp_total) in L; discriminate|lia].
    - intros (I & P & S1 & S2). apply (last_range_in _ _ _ _ A). split; auto. pose proof (TICKETS _ I) as T. unfold pre. cbn [start c_at].
      destruct r as (((p, h), t), v). unfold k_height in *. cbn [fst snd] in *. subst p. split.
      + apply klt_spec. right. split; auto. lia.
      + destruct (N.eq_dec h (q_since q)) as [->|NE]; [destruct (N.eq_dec t 0) as [->|NT]; auto|]; right; apply klt_spec; right; split; auto; lia.
  Qed.
  Lemma all_in r : In r all <-> In r log /\ In (fst (fst (fst r))) ps /\ q_since q <= k_height (fst r) <= q_until q.
  Proof.
    unfold all. rewrite in_concat. split.
    - intros (l & I & H). rewrite map_map in I. apply in_map_iff in I. destruct I as (a & <- & I). apply rem_start in H. destruct H as (H1 & <- & H2). auto.
    - intros (H1 & H2 & H3). exists (rem log q (start (fst (fst (fst r))))). split; [|apply rem_start; auto].
      rewrite map_map. apply in_map_iff. eauto.
  Qed.
  Lemma nodup_app {T} (l l' : list T) : NoDup l -> NoDup l' -> (forall x, In x l -> In x l' -> False) -> NoDup (l ++ l').
  Proof. induction 1 as [|x l N1 N2 IH]; intros NL H; cbn [app]; auto. constructor; [|apply IH; auto; intros; eapply H; eauto; right; auto].
    intros I. apply in_app_or in I. destruct I; auto. eapply H; eauto. left. auto. Qed.
  Lemma nodup_app_l {T} (l l' : list T) : NoDup (l ++ l') -> NoDup l.
  Proof. induction l as [|x l IH]; cbn [app]; intros N; [constructor|]. inversion_clear N as [|? ? N1 N2]. constructor; auto. intros I. apply N1, in_or_app. auto. Qed.
  Lemma all_nodup : NoDup all.
  Proof.
    unfold all. clear SIZE VIEW HEIGHT INJ RANGE LIMIT. induction ND as [|a l N1 N2 IH]; cbn [map List.concat]; [constructor|]. apply nodup_app; auto.
    - apply desc_nodup, last_range_desc; auto.
    - intros r I J. apply rem_start in I. apply in_concat in J. destruct J as (l0 & J & H). rewrite map_map in J. apply in_map_iff in J. destruct J as (b & <- & J).
      apply rem_start in H. destruct I as (_ & I & _), H as (_ & H & _). congruence.
  Qed.
  Lemma all_size : N.of_nat (List.length all) < 2 ^ 31.
  Proof.
    assert ((List.length all <= List.length log)%nat); [|lia]. apply NoDup_incl_length; [apply all_nodup|]. intros r I. apply all_in in I. apply I.
  Qed.
  Definition shows (l : list (key * V)) : list (key * entry) := flat_map rowview l.
  Lemma shows_nodup l : NoDup l -> incl l log -> NoDup (shows l).
  Proof.
    clear SIZE TICKETS HEIGHT ND RANGE LIMIT A. intros N. induction N as [|r l N1 N2 IH]; intros I; cbn [shows flat_map]; [constructor|]. apply nodup_app.
    - pose proof (VIEW r). destruct (rowview r) as [|x [|y z]]; cbn in *; [constructor|constructor; auto; constructor|lia].
    - apply IH. intros x Hx. apply I. right. auto.
    - intros x Hx Hy. apply in_flat_map in Hy. destruct Hy as (r' & Hr & Hy). apply N1.
      replace r with r'; auto. eapply INJ; eauto; apply I; [right|left]; auto.
  Qed.
  Lemma view_shows l : flat_map view l = map snd (shows l).
  Proof. unfold shows, view. induction l as [|r l IH]; cbn [flat_map]; auto. rewrite map_app, IH. auto. Qed.

  Lemma parts_perm (cs : list cursor) prs : Forall2 (part log q) cs prs ->
    Permutation (List.concat (map (rem log q) cs)) (List.concat (map fst prs) ++ List.concat (map snd prs)).
  Proof.
    induction 1 as [|c gr cs prs P F IH]; cbn [map List.concat]; [constructor|]. unfold part in P. rewrite P, IH. rewrite <- !app_assoc. apply Permutation_app_head.
    rewrite !app_assoc. apply Permutation_app_tail, Permutation_app_comm.
  Qed.
  Lemma enough_part cs prs : Forall2 (enough log view finish q) cs prs -> Forall2 (part log q) cs prs.
  Proof. induction 1 as [|c gr cs prs P F IH]; constructor; auto. apply P. Qed.

  Lemma scan_sound l : scan log view finish q ps = Some l -> exists got rest, Permutation (got ++ rest) all /\ Permutation l (map snd (shows got)).
  Proof.
    unfold scan. destruct (rounds _ _ _ _ _ _ _) as [rows|] eqn:E; [|discriminate]. intros [= <-].
    apply (rounds_part log view finish q A) in E; [|apply Forall_forall; intros c I; apply in_map_iff in I; destruct I as (a & <- & _); exact RANGE].
    destruct E as (prs & F & P). exists (List.concat (map fst prs)), (List.concat (map snd prs)). split; [symmetry; apply parts_perm; auto|].
    rewrite view_shows. apply Permutation_map. unfold shows. clear -P. induction P; cbn [flat_map]; auto.
    - apply Permutation_app_head; auto.
    - rewrite !app_assoc. apply Permutation_app_tail, Permutation_app_comm.
    - eapply Permutation_trans; eauto.
  Qed.
  Lemma shows_perm l l' : Permutation l l' -> Permutation (shows l) (shows l').
  Proof.
    unfold shows. induction 1; cbn [flat_map]; auto.
    - apply Permutation_app_head; auto.
    - rewrite !app_assoc. apply Permutation_app_tail, Permutation_app_comm.
    - eapply Permutation_trans; eauto.
  Qed.
  Lemma later_perm_le l l' e : later l e <= later (l ++ l') e.
  Proof. rewrite later_app. lia. Qed.
  Lemma u32_limit : (0 < q_limit q)%Z -> u32 (q_limit q) = Z.to_N (q_limit q).
  Proof. intros P. destruct LIMIT. unfold u32. rewrite Z.mod_small by lia. auto. Qed.
  Lemma u32_neg : (q_limit q < 0)%Z -> 2 ^ 31 <= u32 (q_limit q).
  Proof. intros P. destruct LIMIT. unfold u32. rewrite <- (Z.mod_add _ 1) by lia. rewrite Z.mod_small by lia. lia. Qed.

  Lemma scan_enough (pending : list entry) : q_max_search q = 0 -> q_limit q <> 0%Z -> (finish = true \/ (q_limit q < 0)%Z) ->
    exists l, scan log view finish q ps = Some l /\ Permutation (shown (q_limit q) (l ++ pending)) (shown (q_limit q) (map snd (shows all) ++ pending)).
  Proof.
    intros M NZ FIN. unfold scan.
    assert (FI : Forall (fine log q) (map start ps)).
    { apply Forall_forall. intros c I. apply in_map_iff in I. destruct I as (a & <- & I). split; [|exact RANGE]. cbn [start c_count].
      assert (List.length (rem log q (start a)) <= List.length log)%nat; [|lia].
      apply NoDup_incl_length; [apply desc_nodup, last_range_desc; auto|apply rem_log; auto]. }
    assert (V1 : forall r, (List.length (view r) <= 1)%nat) by (intros r; unfold view; rewrite map_length; auto).
    destruct (rounds_enough log view finish q A V1 (S (List.length log)) (map start ps) 0) as (rows & prs & E & F & P); auto.
    - apply all_size.
    - apply Forall_forall. intros c I. assert (List.length (rem log q c) <= List.length log)%nat; [|lia].
      apply NoDup_incl_length; [apply desc_nodup, last_range_desc; auto|apply rem_log; auto].
    - unfold start in E. rewrite E. exists (flat_map view rows). split; auto. rewrite view_shows.
      pose proof (parts_perm _ _ (enough_part _ _ F)) as PP. fold all in PP.
      set (G := List.concat (map fst prs)) in *. set (R := List.concat (map snd prs)) in *.
      rewrite (shown_perm _ _ (map snd (shows G) ++ pending)) by (apply Permutation_app_tail, Permutation_map, shows_perm; auto).
      rewrite (shown_less _ (map snd (shows G) ++ pending) (map snd (shows R))).
      + apply shown_perm. rewrite <- app_assoc, (Permutation_app_comm pending), app_assoc. apply Permutation_app_tail. rewrite <- map_app. apply Permutation_map.
        unfold shows. rewrite <- flat_map_app. fold (shows all). change (flat_map rowview (G ++ R)) with (shows (G ++ R)). apply shows_perm. symmetry. auto.
      + intros y Hy. apply in_map_iff in Hy. destruct Hy as (x & <- & Hx). apply in_flat_map in Hx. destruct Hx as (r & Hr & Hx).
        unfold R in Hr. apply in_concat in Hr. destruct Hr as (l & Hl & Hr). apply in_map_iff in Hl. destruct Hl as (gr & <- & Hgr).
        assert (EX : exists c, In c (map start ps) /\ enough log view finish q c gr).
        { clear -F Hgr. induction F as [|c g cs prs H F IH]; [destruct Hgr|]. destruct Hgr as [->|Hgr]; [exists c; split; auto; left; auto|].
          destruct (IH Hgr) as (c' & I & H'). exists c'. split; auto. right. auto. }
        destruct EX as (c & Hc & PT & EN). destruct EN as [EN|(CNT & NE & HI)]; [rewrite EN in Hr; destruct Hr|].
        apply in_map_iff in Hc. destruct Hc as (a & <- & Ha). cbn [start c_count] in CNT. rewrite N.add_0_l in CNT.
        assert (LL : N.of_nat (List.length (flat_map view (fst gr))) < 2 ^ 31).
        { pose proof (hits_le view V1 (fst gr)). assert (List.length (fst gr) <= List.length all)%nat; [|pose proof all_size; lia].
          unfold part in PT. assert (L1 : (List.length (fst gr) <= List.length (rem log q (start a)))%nat) by (rewrite PT, app_length; lia).
          etransitivity; [apply L1|]. apply NoDup_incl_length; [apply desc_nodup, last_range_desc; auto|].
          intros z Hz. apply rem_start in Hz. destruct Hz as (Z1 & <- & Z2). apply all_in. auto. }
        destruct (Z.lt_trichotomy (q_limit q) 0) as [NEG|[Z0|POS]]; [pose proof (u32_neg NEG); lia|congruence|]. split; auto.
        rewrite u32_limit in CNT by auto. etransitivity; [apply CNT|]. destruct FIN as [FIN|FIN]; [|lia].
        assert (HIG : forall z, In z (fst gr) -> k_height (fst r) < k_height (fst z)) by (intros z Hz; apply HI; auto).
        etransitivity; [|apply later_perm_le]. unfold G.
        assert (INL : forall z, In z (fst gr ++ snd gr) -> In z log) by (intros z Hz; unfold part in PT; rewrite <- PT in Hz; eapply rem_log; eauto).
        assert (LG : N.of_nat (List.length (flat_map view (fst gr))) <= later (map snd (shows (fst gr))) (snd x)).
        { rewrite later_all; [rewrite view_shows; lia|]. intros z Hz. apply in_map_iff in Hz. destruct Hz as (z' & <- & Hz). apply in_flat_map in Hz.
          destruct Hz as (r' & Hr' & Hz). rewrite (HEIGHT r x), (HEIGHT r' z'); auto; apply INL, in_or_app; auto. }
        etransitivity; [apply LG|]. apply in_split in Hgr. destruct Hgr as (p1 & p2 & ->). rewrite map_app, concat_app. cbn [map List.concat].
        unfold shows. rewrite !flat_map_app, !map_app, !later_app. lia.
  Qed.
End QUERY.

Lemma aget_row (log : list (key * entry)) k e : asorted key_cmp log -> aget key_cmp k log = Some e <-> In (k, e) log.
Proof. intros A. apply aget_In; auto using KT. Qed.

Lemma scan_ext {V} (log : list (key * V)) v v' finish q ps : (forall r, v r = v' r) -> scan log v finish q ps = scan log v' finish q ps.
Proof.
  intros E. assert (FM : forall l, flat_map v l = flat_map v' l) by (intros l; apply flat_map_ext; auto).
  assert (AD : forall c, advance log v q c = advance log v' q c) by (intros c; unfold advance; rewrite FM; auto).
  assert (RD : forall cs, round log v finish q cs = round log v' finish q cs).
  { induction cs as [|c cs IH]; cbn [round]; auto. rewrite AD, IH. auto. }
  assert (RS : forall fuel cs s, rounds log v finish q fuel cs s = rounds log v' finish q fuel cs s).
  { induction fuel as [|fuel IH]; intros [|c cs] s; auto. cbn [rounds]. rewrite RD. destruct (negb _); auto. destruct (round log v' finish q (c :: cs)) as (rows, left). rewrite IH. auto. }
  unfold scan. rewrite RS. destruct (rounds _ _ _ _ _ _ _); auto. rewrite FM. auto.
Qed.
Lemma cut_sort n l : (n <> 0)%Z -> newest_first (cut n (sort l)) /\ Permutation (cut n (sort l)) (shown n l).
Proof.
  intros NZ. pose proof (sorted_newest _ (sort_sorted l)) as S. rewrite cut_shown by auto. split.
  - unfold shown. destruct (n <? 0)%Z; auto. apply newest_filter; auto.
  - apply shown_perm, sort_perm.
Qed.
Lemma shown_zero l : shown 0 l = [].
Proof. unfold shown. cbn. apply filter_no. intros x _. apply N.ltb_ge. lia. Qed.

Section HISTORY.
  Variables (log : list (key * entry)) (pending : list entry) (addresses : list addr) (q : query).
  Hypothesis L : log_ok log.
  Hypothesis RANGE : q_since q <= q_until q.
  Hypothesis LIMIT : limit_ok q.
  Definition rv1 (r : key * entry) : list (key * entry) := if passes q (snd r) then [r] else [].
  Lemma rv1_in r x : In x (rv1 r) -> x = r /\ passes q (snd r) = true.
  Proof. unfold rv1. destruct (passes q (snd r)); [intros [<-|[]]; auto|intros []]. Qed.
  Lemma rv1_all k e : In (k, e) (shows rv1 (all log q (address_set addresses))) <-> In (k, e) log /\ wanted addresses q e.
  Proof.
    destruct L as [A R T Z]. destruct (address_set_ok addresses) as (ND & IN).
    unfold shows. rewrite in_flat_map. split.
    - intros (r & Hr & Hx). apply rv1_in in Hx. destruct Hx as (<- & P). apply all_in in Hr; auto; [|intros (k', e') I; eapply T; eauto].
      destruct Hr as (I & I2 & B). cbn [fst snd] in *. unfold k_height in B. rewrite (R _ _ I) in *. cbn [fst snd] in *. rewrite IN in I2. apply passes_iff in P.
      split; auto. split; auto.
    - intros (I & W1 & W2 & W3). exists (k, e). split.
      + apply all_in; auto; [intros (k', e') I'; eapply T; eauto|]. unfold k_height. cbn [fst snd]. rewrite (R _ _ I). cbn [fst snd]. rewrite IN. auto.
      + unfold rv1. cbn [snd]. replace (passes q e) with true by (symmetry; apply passes_iff; auto). left. auto.
  Qed.
  Lemma rv1_hyps : (forall r, (List.length (rv1 r) <= 1)%nat) /\ (forall r x, In r log -> In x (rv1 r) -> e_height (snd x) = k_height (fst r)) /\
    (forall r r' x, In r log -> In r' log -> In x (rv1 r) -> In x (rv1 r') -> r = r').
  Proof.
    split; [intros r; unfold rv1; destruct (passes q (snd r)); auto|]. split.
    - intros (k, e) x I Hx. apply rv1_in in Hx. destruct Hx as (-> & _). unfold k_height. cbn [fst snd]. rewrite (lg_rows _ L _ _ I). auto.
    - intros r r' x _ _ H1 H2. apply rv1_in in H1, H2. destruct H1 as (-> & _), H2 as (-> & _). auto.
  Qed.
  Lemma tickets1 : forall r, In r log -> snd (fst r) < 2 ^ 32 - 1.
  Proof. intros (k, e) I. eapply (lg_tickets _ L); eauto. Qed.
  Lemma all_fits : NoDup (all log q (address_set addresses)) /\ incl (all log q (address_set addresses)) log.
  Proof.
    split.
    - apply (all_nodup log q (address_set addresses) (lg_sorted _ L) tickets1). apply address_set_ok.
    - intros r I. apply (all_in log q (address_set addresses) (lg_sorted _ L) tickets1) in I. apply I.
  Qed.
  Lemma history_scan ps : scan log (fun r => if passes q (snd r) then [snd r] else []) true q ps = scan log (view rv1) true q ps.
  Proof. apply scan_ext. intros r. unfold view, rv1. destruct (passes q (snd r)); auto. Qed.

  Lemma history_complete : q_max_search q = 0 -> exists r rows, get_history log pending addresses q = Some r /\
    rows_are log rows (wanted addresses q) /\ Permutation r (shown (q_limit q) (map snd rows ++ pending)) /\ newest_first r.
  Proof.
    intros M. destruct rv1_hyps as (V & HT & INJ). destruct (address_set_ok addresses) as (ND & IN).
    assert (RW : rows_are log (shows rv1 (all log q (address_set addresses))) (wanted addresses q)).
    { split; [|apply rv1_all]. apply (shows_nodup log rv1 V INJ); [exact (proj1 all_fits)|exact (proj2 all_fits)]. }
    unfold get_history. destruct (Z.eqb_spec (q_limit q) 0) as [Z0|NZ].
    - exists [], (shows rv1 (all log q (address_set addresses))). split; auto. split; auto. rewrite Z0, shown_zero. split; constructor.
    - rewrite history_scan.
      destruct (scan_enough log rv1 true q (address_set addresses) (lg_sorted _ L) (lg_size _ L) tickets1 V HT ND RANGE LIMIT pending M NZ) as (l & E & P); auto.
      rewrite E. exists (cut (q_limit q) (sort (l ++ pending))), (shows rv1 (all log q (address_set addresses))). split; auto. split; auto.
      destruct (cut_sort (q_limit q) (l ++ pending) NZ) as (C1 & C2). split; auto. rewrite C2. auto.
  Qed.
  Lemma history_sound r : get_history log pending addresses q = Some r -> exists rows,
    rows_among log rows (wanted addresses q) /\ Permutation r (shown (q_limit q) (map snd rows ++ pending)) /\ newest_first r.
  Proof.
    destruct rv1_hyps as (V & HT & INJ). destruct (address_set_ok addresses) as (ND & IN).
    unfold get_history. destruct (Z.eqb_spec (q_limit q) 0) as [Z0|NZ].
    - intros [= <-]. exists []. split; [split; [constructor|intros ? ? []]|]. rewrite Z0, shown_zero. split; constructor.
    - rewrite history_scan. destruct (scan _ _ _ _ _) as [l|] eqn:E; [|discriminate]. intros [= <-].
      destruct (scan_sound log rv1 true q (address_set addresses) (lg_sorted _ L) RANGE l E) as (got & rest & P1 & P2).
      exists (shows rv1 got). assert (I : incl got (all log q (address_set addresses))) by (intros z Hz; eapply Permutation_in; [apply P1|]; apply in_or_app; auto).
      split; [split|].
      + apply (shows_nodup log rv1 V INJ).
        * eapply nodup_app_l. eapply Permutation_NoDup; [symmetry; apply P1|]. apply all_fits.
        * intros z Hz. apply I in Hz. apply (proj2 all_fits); auto.
      + intros k e Hk. apply rv1_all. apply in_flat_map in Hk. apply in_flat_map. destruct Hk as (z & Hz & Hk). exists z. auto.
      + destruct (cut_sort (q_limit q) (l ++ pending) NZ) as (C1 & C2). split; auto. rewrite C2. apply shown_perm, Permutation_app_tail; auto.
  Qed.
End HISTORY.

Lemma log_fun (log : list (key * entry)) k e e' : asorted key_cmp log -> In (k, e) log -> In (k, e') log -> e = e'.
Proof. intros A I I'. apply (aget_row _ _ _ A) in I, I'. congruence. Qed.
Section MEMO.
  Variables (H : addr -> bytes -> addr) (log : list (key * entry)) (memos : list (key * addr)) (pending : list entry) (addresses : list addr) (memo : bytes) (q : query).
  Hypothesis INJECTIVE : forall a m a' m', H a m = H a' m' -> a = a' /\ m = m'.
  Hypothesis L : log_ok log.
  Hypothesis MM : memos_ok H log memos.
  Hypothesis RANGE : q_since q <= q_until q.
  Hypothesis LIMIT : limit_ok q.
  Definition wanted_memo (e : entry) : Prop := wanted addresses q e /\ e_memo e = Some memo.
  Definition rv2 (r : key * addr) : list (key * entry) :=
    let k := ((snd r, k_height (fst r)), snd (fst r)) in
    match aget key_cmp k log with Some e => if passes q e then [(k, e)] else [] | None => [] end.
  Lemma rv2_in r k e : In (k, e) (rv2 r) <-> k = ((snd r, k_height (fst r)), snd (fst r)) /\ In (k, e) log /\ passes q e = true.
  Proof.
    unfold rv2. destruct (aget key_cmp _ log) as [e'|] eqn:E.
    - apply (aget_row _ _ _ (lg_sorted _ L)) in E. destruct (passes q e') eqn:P; split.
      + intros [[= <- <-]|[]]. auto.
      + intros (-> & I & _). left. assert (e = e') by (eapply (log_fun log); eauto using lg_sorted). subst e'. reflexivity.
      + intros [].
      + intros (-> & I & P'). assert (e = e') by (eapply (log_fun log); eauto using lg_sorted). congruence.
    - split; [intros []|]. intros (-> & I & _). apply (aget_row _ _ _ (lg_sorted _ L)) in I. congruence.
  Qed.
  Definition ps2 : list addr := map (fun a => H a memo) (address_set addresses).
  Lemma ps2_nodup : NoDup ps2.
  Proof.
    destruct (address_set_ok addresses) as (ND & _). unfold ps2. clear -ND INJECTIVE. induction ND as [|a l N1 N2 IH]; cbn [map]; constructor; auto.
    intros I. apply in_map_iff in I. destruct I as (b & E & I). apply INJECTIVE in E. destruct E as (-> & _). auto.
  Qed.
  Lemma tickets2 : forall r, In r memos -> snd (fst r) < 2 ^ 32 - 1.
  Proof. intros (((p, h), t), a) I. apply (mm_rows _ _ _ MM) in I. destruct I as (e & m & I & _). apply (lg_tickets _ L) in I. auto. Qed.
  Lemma rv2_hyps : (forall r, (List.length (rv2 r) <= 1)%nat) /\ (forall r x, In r memos -> In x (rv2 r) -> e_height (snd x) = k_height (fst r)) /\
    (forall r r' x, In r memos -> In r' memos -> In x (rv2 r) -> In x (rv2 r') -> r = r').
  Proof.
    split; [intros r; unfold rv2; destruct (aget _ _ _) as [e|]; auto; destruct (passes q e); auto|]. split.
    - intros r (k, e) I Hx. apply rv2_in in Hx. destruct Hx as (-> & Hx & _). apply (lg_rows _ L) in Hx. cbn [fst snd] in *. congruence.
    - intros (((p, h), t), a) (((p', h'), t'), a') (k, e) I I' H1 H2. apply rv2_in in H1, H2. unfold k_height in *. cbn [fst snd] in *.
      destruct H1 as (-> & H1 & _), H2 as (Q & _ & _). injection Q as -> -> ->.
      apply (mm_rows _ _ _ MM) in I, I'. destruct I as (e1 & m1 & I1 & M1 & ->), I' as (e2 & m2 & I2 & M2 & ->).
      assert (e1 = e2) by (eapply (log_fun log); eauto using lg_sorted). subst e2. replace m2 with m1 by congruence. auto.
  Qed.
  Lemma rv2_all k e : In (k, e) (shows rv2 (all memos q ps2)) <-> In (k, e) log /\ wanted_memo e.
  Proof.
    destruct (address_set_ok addresses) as (ND & IN). unfold shows. rewrite in_flat_map. split.
    - intros (r & Hr & Hx). apply rv2_in in Hx. destruct Hx as (-> & I & P). apply (all_in memos q ps2 (mm_sorted _ _ _ MM) tickets2) in Hr.
      destruct Hr as (I1 & I2 & B). split; auto. apply in_map_iff in I2. destruct I2 as (a & Ha & I2). apply IN in I2.
      destruct r as (((p, h), t), a'). unfold k_height in *. cbn [fst snd] in *. subst p. apply (mm_rows _ _ _ MM) in I1. destruct I1 as (e1 & m & I1 & M & Q).
      apply INJECTIVE in Q. destruct Q as (<- & <-). assert (e1 = e) by (eapply (log_fun log); eauto using lg_sorted). subst e1.
      pose proof (lg_rows _ L _ _ I) as R. cbn [fst] in R. injection R as RA RH. apply passes_iff in P. split; [|auto]. split; [congruence|]. split; [rewrite <- RH; auto|auto].
    - intros (I & (W1 & W2 & W3) & M). pose proof (lg_rows _ L _ _ I) as R. destruct k as ((a, h), t). cbn [fst] in R. injection R as -> ->.
      exists (((H (e_address e) memo, e_height e), t), e_address e). split.
      + apply (all_in memos q ps2 (mm_sorted _ _ _ MM) tickets2). split; [apply (mm_rows _ _ _ MM); eauto|]. unfold k_height. cbn [fst snd]. split; auto.
        apply in_map_iff. exists (e_address e). rewrite IN. auto.
      + apply rv2_in. unfold k_height. cbn [fst snd]. split; auto. split; auto. apply passes_iff; auto.
  Qed.
  Lemma all_fits2 : NoDup (all memos q ps2) /\ incl (all memos q ps2) memos.
  Proof.
    split.
    - apply (all_nodup memos q ps2 (mm_sorted _ _ _ MM) tickets2). apply ps2_nodup.
    - intros r I. apply (all_in memos q ps2 (mm_sorted _ _ _ MM) tickets2) in I. apply I.
  Qed.
  Lemma memo_scan : scan memos (fun r => match aget key_cmp ((snd r, k_height (fst r)), snd (fst r)) log with
      | Some e => if passes q e then [e] else [] | None => [] end) false q ps2 = scan memos (view rv2) false q ps2.
  Proof. apply scan_ext. intros r. unfold view, rv2. destruct (aget _ _ _) as [e|]; auto. destruct (passes q e); auto. Qed.
  Lemma memo_complete : q_max_search q = 0 -> (q_limit q < 0)%Z -> exists r rows, get_history_memo H log memos pending addresses memo q = Some r /\
    rows_are log rows wanted_memo /\ Permutation r (map snd rows ++ pending) /\ newest_first r.
  Proof.
    intros M NEG. destruct rv2_hyps as (V & HT & INJ). unfold get_history_memo. fold ps2. rewrite memo_scan.
    destruct (Z.eqb_spec (q_limit q) 0) as [Z0|NZ]; [lia|].
    destruct (scan_enough memos rv2 false q ps2 (mm_sorted _ _ _ MM) (mm_size _ _ _ MM) tickets2 V HT ps2_nodup RANGE LIMIT pending M NZ) as (l & E & P); auto.
    rewrite E. exists (cut (q_limit q) (sort (l ++ pending))), (shows rv2 (all memos q ps2)). split; auto. split.
    - split; [apply (shows_nodup memos rv2 V INJ); [exact (proj1 all_fits2)|exact (proj2 all_fits2)]|apply rv2_all].
    - destruct (cut_sort (q_limit q) (l ++ pending) NZ) as (C1 & C2). split; auto. rewrite C2, P. unfold shown. replace (q_limit q <? 0)%Z with true by (symmetry; apply Z.ltb_lt; auto). auto.
  Qed.
  Lemma memo_sound r : get_history_memo H log memos pending addresses memo q = Some r -> exists rows,
    rows_among log rows wanted_memo /\ Permutation r (shown (q_limit q) (map snd rows ++ pending)) /\ newest_first r.
  Proof.
    destruct rv2_hyps as (V & HT & INJ). unfold get_history_memo. fold ps2. rewrite memo_scan. destruct (Z.eqb_spec (q_limit q) 0) as [Z0|NZ].
    - intros [= <-]. exists []. split; [split; [constructor|intros ? ? []]|]. rewrite Z0, shown_zero. split; constructor.
    - destruct (scan _ _ _ _ _) as [l|] eqn:E; [|discriminate]. intros [= <-].
      destruct (scan_sound memos rv2 false q ps2 (mm_sorted _ _ _ MM) RANGE l E) as (got & rest & P1 & P2).
      exists (shows rv2 got). assert (I : incl got (all memos q ps2)) by (intros z Hz; eapply Permutation_in; [apply P1|]; apply in_or_app; auto).
      split; [split|].
      + apply (shows_nodup memos rv2 V INJ).
        * eapply nodup_app_l. eapply Permutation_NoDup; [symmetry; apply P1|]. apply all_fits2.
        * intros z Hz. apply I in Hz. apply (proj2 all_fits2); auto.
      + intros k e Hk. apply rv2_all. apply in_flat_map in Hk. apply in_flat_map. destruct Hk as (z & Hz & Hk). exists z. auto.
      + destruct (cut_sort (q_limit q) (l ++ pending) NZ) as (C1 & C2). split; auto. rewrite C2. apply shown_perm, Permutation_app_tail; auto.
  Qed.
End MEMO.

(** ** What blocks write *)
Lemma aset_perm {T} (k : key) (v : T) l : asorted key_cmp l -> (forall v', ~ In (k, v') l) -> Permutation (aset key_cmp k v l) ((k, v) :: l).
Proof.
  induction l as [|(k', v') l IH]; intros A N; cbn [aset]; auto. destruct (key_cmp k k') eqn:E; auto.
  - apply (tc_eq KT) in E. subst k'. exfalso. apply (N v'). left. auto.
  - rewrite IH; [apply perm_swap| |].
    + unfold asorted in *. cbn [map] in A. inversion A; auto.
    + intros v'' I. apply (N v''). right. auto.
Qed.
Fixpoint rows_from (c : N) (l : list entry) : list (key * entry) :=
  match l with [] => [] | e :: l => (((e_address e, e_height e), c), e) :: rows_from (c + 1) l end.
Fixpoint memos_from (H : addr -> bytes -> addr) (c : N) (l : list entry) : list (key * addr) :=
  match l with
  | [] => []
  | e :: l => match e_memo e with Some m => [(((H (e_address e) m, e_height e), c), e_address e)] | None => [] end ++ memos_from H (c + 1) l
  end.
Lemma rows_from_in c l k e : In (k, e) (rows_from c l) -> fst k = (e_address e, e_height e) /\ In e l /\ c <= snd k < c + N.of_nat (List.length l).
Proof.
  revert c. induction l as [|x l IH]; intros c; cbn [rows_from In List.length]; [intros []|]. intros [[= <- <-]|I].
  - cbn [fst snd]. split; auto. split; auto. lia.
  - destruct (IH _ I) as (A & B & C). split; auto. split; auto. lia.
Qed.
Lemma rows_from_snd c l : map snd (rows_from c l) = l.
Proof. revert c. induction l as [|x l IH]; intros c; cbn [rows_from map snd]; auto. rewrite IH. auto. Qed.
Lemma write_log_ok h es : forall c log, asorted key_cmp log -> (forall e, In e es -> e_height e = h) -> (forall k e, In (k, e) log -> k_height k = h -> snd k < c) ->
  asorted key_cmp (write_log c es log) /\ Permutation (write_log c es log) (rows_from c es ++ log).
Proof.
  induction es as [|e es IH]; intros c log A HE HL; cbn [write_log rows_from app]; auto.
  assert (ABS : forall v', ~ In (((e_address e, e_height e), c), v') log).
  { intros v' I. specialize (HL _ _ I). unfold k_height in HL. cbn [fst snd] in HL. rewrite HE in HL by (left; auto). specialize (HL eq_refl). lia. }
  pose proof (aset_perm _ e _ A ABS) as P.
  destruct (IH (c + 1) (aset key_cmp ((e_address e, e_height e), c) e log)) as (A' & P').
  - apply aset_sorted; auto using KT.
  - intros; apply HE; right; auto.
  - intros k e' I K. apply (Permutation_in _ P) in I. destruct I as [[= <- <-]|I]; [cbn [snd]; lia|]. specialize (HL _ _ I K). lia.
  - split; auto. rewrite P', P. symmetry. apply Permutation_middle.
Qed.
Lemma write_memos_ok H h es : forall c memos, asorted key_cmp memos -> (forall e, In e es -> e_height e = h) -> (forall k e, In (k, e) memos -> k_height k = h -> snd k < c) ->
  asorted key_cmp (write_memos H c es memos) /\ Permutation (write_memos H c es memos) (memos_from H c es ++ memos).
Proof.
  induction es as [|e es IH]; intros c memos A HE HL; cbn [write_memos memos_from app]; auto.
  set (M := match e_memo e with Some m => _ | None => memos end).
  assert (X : asorted key_cmp M /\ Permutation M (match e_memo e with Some m => [(((H (e_address e) m, e_height e), c), e_address e)] | None => [] end ++ memos)).
  { unfold M. destruct (e_memo e) as [m|]; auto. split; [apply aset_sorted; auto using KT|]. apply aset_perm; auto.
    intros v' I. specialize (HL _ _ I). unfold k_height in HL. cbn [fst snd] in HL. rewrite HE in HL by (left; auto). specialize (HL eq_refl). lia. }
  destruct X as (AM & PM). clearbody M. destruct (IH (c + 1) M) as (A' & P'); auto.
  - intros; apply HE; right; auto.
  - intros k e' I K. apply (Permutation_in _ PM) in I. apply in_app_or in I. destruct I as [I|I].
    + destruct (e_memo e); [|destruct I]. destruct I as [[= <- <-]|[]]. cbn [snd]. lia.
    + specialize (HL _ _ I K). lia.
  - split; auto. rewrite P', PM. rewrite !app_assoc. apply Permutation_app_tail, Permutation_app_comm.
Qed.
Lemma memos_from_in H c l p h t a : In (((p, h), t), a) (memos_from H c l) <-> exists e m, In (((a, h), t), e) (rows_from c l) /\ e_memo e = Some m /\ p = H a m.
Proof.
  revert c. induction l as [|x l IH]; intros c; cbn [memos_from rows_from]; [split; [intros []|intros (? & ? & [] & _)]|].
  rewrite in_app_iff, IH. split.
  - intros [I|(e & m & I & M)].
    + destruct (e_memo x) as [m|] eqn:E; [|destruct I]. destruct I as [[= <- <- <- <-]|[]]. exists x, m. split; [left; auto|auto].
    + exists e, m. split; auto. right. auto.
  - intros (e & m & [[= <- <- <- <-]|I] & M & ->).
    + left. rewrite M. left. auto.
    + right. eauto.
Qed.

Definition loose (H : addr -> bytes -> addr) (log : list (key * entry)) (memos : list (key * addr)) (h : N) : Prop :=
  asorted key_cmp log /\ asorted key_cmp memos /\
  (forall k e, In (k, e) log -> fst k = (e_address e, e_height e) /\ e_height e <= h /\ snd k < N.of_nat (List.length log)) /\
  (forall p h t a, In (((p, h), t), a) memos <-> exists e m, In (((a, h), t), e) log /\ e_memo e = Some m /\ p = H a m).
Lemma loose_step H log memos h es h' : loose H log memos h -> (forall e, In e es -> e_height e = h') -> (log = [] \/ h < h') ->
  loose H (write_log 0 es log) (write_memos H 0 es memos) h' /\ Permutation (write_log 0 es log) (rows_from 0 es ++ log).
Proof.
  intros (A & AM & R & M) HE HH.
  assert (NO : forall k e, In (k, e) log -> k_height k = h' -> snd k < 0).
  { intros k e I K. exfalso. destruct HH as [->|HH]; [destruct I|]. destruct (R _ _ I) as (F & B & _). unfold k_height in K. rewrite F in K. cbn [snd] in K. lia. }
  assert (NOM : forall k e, In (k, e) memos -> k_height k = h' -> snd k < 0).
  { intros ((p, x), t) a I K. apply M in I. destruct I as (e & m & I & _). apply (NO _ _ I). exact K. }
  destruct (write_log_ok h' es 0 log A HE NO) as (A' & P). destruct (write_memos_ok H h' es 0 memos AM HE NOM) as (AM' & PM).
  split; auto. split; auto. split; auto. split.
  - intros k e I. apply (Permutation_in _ P) in I. apply in_app_or in I. rewrite (Permutation_length P), app_length.
    assert (LR : List.length (rows_from 0 es) = List.length es) by (rewrite <- (rows_from_snd 0 es) at 2; rewrite map_length; auto). rewrite LR.
    destruct I as [I|I].
    + apply rows_from_in in I. destruct I as (F & I & T). split; auto. rewrite (HE _ I). split; lia.
    + destruct (R _ _ I) as (F & B & T). split; auto. destruct HH as [->|HH]; [destruct I|]. split; lia.
  - intros p x t a. split.
    + intros I. apply (Permutation_in _ PM) in I. apply in_app_or in I. destruct I as [I|I].
      * apply memos_from_in in I. destruct I as (e & m & I & E). exists e, m. split; auto. apply (Permutation_in _ (Permutation_sym P)), in_or_app. auto.
      * apply M in I. destruct I as (e & m & I & E). exists e, m. split; auto. apply (Permutation_in _ (Permutation_sym P)), in_or_app. auto.
    + intros (e & m & I & E). apply (Permutation_in _ P) in I. apply (Permutation_in _ (Permutation_sym PM)). apply in_or_app. apply in_app_or in I.
      destruct I as [I|I]; [left; apply memos_from_in|right; apply M]; eauto.
Qed.

Lemma received_app a cur l l' : received_sum a cur (l ++ l') = received_sum a cur l + received_sum a cur l'.
Proof. induction l as [|x l IH]; cbn [app]; auto. unfold received_sum in *. cbn [fold_right]. rewrite IH. lia. Qed.
Lemma spent_app a cur l l' : spent_sum a cur (l ++ l') = spent_sum a cur l + spent_sum a cur l'.
Proof. induction l as [|x l IH]; cbn [app]; auto. unfold spent_sum in *. cbn [fold_right]. rewrite IH. lia. Qed.
Lemma received_perm a cur l l' : Permutation l l' -> received_sum a cur l = received_sum a cur l'.
Proof. unfold received_sum. induction 1; cbn [fold_right]; auto; lia. Qed.
Lemma spent_perm a cur l l' : Permutation l l' -> spent_sum a cur l = spent_sum a cur l'.
Proof. unfold spent_sum. induction 1; cbn [fold_right]; auto; lia. Qed.
Lemma received_outs a cur id h k l : spent k = false -> received_sum a cur (map (entry_out id h k) l) = out_to a cur l /\ spent_sum a cur (map (entry_out id h k) l) = 0.
Proof.
  intros S. induction l as [|o l (IH1 & IH2)]; [auto|]. unfold received_sum, spent_sum in *. cbn [map fold_right]. rewrite IH1, IH2. cbn [entry_out e_address e_contract e_kind e_amount].
  rewrite S. cbn [negb]. rewrite andb_true_r, andb_false_r. split; auto.
Qed.
Lemma spent_ins a cur id h k l : spent k = true -> spent_sum a cur (map (entry_in id h k) l) = in_from a cur l /\ received_sum a cur (map (entry_in id h k) l) = 0.
Proof.
  intros S. induction l as [|o l (IH1 & IH2)]; [auto|]. unfold received_sum, spent_sum in *. cbn [map fold_right]. rewrite IH1, IH2. cbn [entry_in e_address e_contract e_kind e_amount].
  rewrite S. cbn [negb]. rewrite andb_true_r, andb_false_r. split; auto.
Qed.
Lemma outputs_sum a cur P id h b : received_sum a cur (outputs_of P id h b) = out_to a cur (outs_of P b) /\ spent_sum a cur (outputs_of P id h b) = 0.
Proof.
  unfold outputs_of, outs_of. rewrite received_app, spent_app, out_to_app'.
  assert (X : received_sum a cur (reward_entries P id h b) = out_to a cur (reward_outs P b) /\ spent_sum a cur (reward_entries P id h b) = 0).
  { unfold reward_entries, reward_outs. rewrite !received_app, !spent_app, !out_to_app'.
    assert (S1 : forall k o, spent k = false -> received_sum a cur [entry_out id h k o] = out_to a cur [o] /\ spent_sum a cur [entry_out id h k o] = 0)
      by (intros k o S; apply (received_outs a cur id h k [o] S)).
    destruct (b_vdf_payout b); [destruct (S1 VDF_REWARD (mk_txout a0 zero_addr (p_vdf_reward P) None) eq_refl) as (-> & ->)|];
    (destruct (b_reward_addr b) as [r|]; [destruct (b_reward_amount b =? 0); [|destruct (S1 REWARD (mk_txout r zero_addr (b_reward_amount b) None) eq_refl) as (-> & ->)]|]);
    (destruct (project_reward P (fees_of (b_txs b)) =? 0); [|destruct (S1 PROJECT_REWARD (mk_txout (b_project b) zero_addr (project_reward P (fees_of (b_txs b))) None) eq_refl) as (-> & ->)]); auto. }
  destruct X as (-> & ->).
  assert (Y : received_sum a cur (flat_map (tx_outputs h) (b_txs b)) = out_to a cur (flat_map (fun t => block_outputs t (res t)) (b_txs b)) /\ spent_sum a cur (flat_map (tx_outputs h) (b_txs b)) = 0).
  { induction (b_txs b) as [|t l (IH1 & IH2)]; [auto|]. cbn [flat_map]. rewrite received_app, spent_app, out_to_app', IH1, IH2. unfold tx_outputs, block_outputs.
    destruct (rs_fail (res t)); [auto|]. destruct (received_outs a cur (t_id t) h RECEIVE (t_outputs t ++ rs_outputs (res t)) eq_refl) as (-> & ->). auto. }
  destruct Y as (-> & ->). auto.
Qed.
Lemma inputs_sum a cur h b : spent_sum a cur (inputs_of h b) = in_from a cur (ins_of (b_txs b)) /\ received_sum a cur (inputs_of h b) = 0.
Proof.
  unfold inputs_of, ins_of. induction (b_txs b) as [|t l (IH1 & IH2)]; [auto|]. cbn [flat_map]. rewrite received_app, spent_app, in_from_app', IH1, IH2. unfold tx_inputs, block_inputs.
  rewrite received_app, spent_app, in_from_app'.
  assert (X : spent_sum a cur (match t_sender t with Some s => [entry_in (t_id t) h TXFEE (mk_txin s zero_addr (rs_fee (res t)) None false 0)] | None => [] end) =
    in_from a cur (match t_sender t with Some s => [mk_txin s zero_addr (rs_fee (res t)) None false 0] | None => [] end) /\
    received_sum a cur (match t_sender t with Some s => [entry_in (t_id t) h TXFEE (mk_txin s zero_addr (rs_fee (res t)) None false 0)] | None => [] end) = 0).
  { destruct (t_sender t) as [s|]; auto. apply (spent_ins a cur (t_id t) h TXFEE [mk_txin s zero_addr (rs_fee (res t)) None false 0] eq_refl). }
  destruct X as (-> & ->). destruct (rs_fail (res t)); [auto|]. destruct (spent_ins a cur (t_id t) h SPEND (t_inputs t ++ rs_inputs (res t)) eq_refl) as (-> & ->). auto.
Qed.
Lemma entries_height P id h b e : In e (block_entries P id h b) -> e_height e = h.
Proof.
  unfold block_entries, outputs_of, inputs_of, reward_entries. rewrite !in_app_iff, !in_flat_map. intros [[[I|[I|I]]|(t & _ & I)]|(t & _ & I)].
  - destruct (b_vdf_payout b); [destruct I as [<-|[]]; auto|destruct I].
  - destruct (b_reward_addr b); [|destruct I]. destruct (b_reward_amount b =? 0); [destruct I|destruct I as [<-|[]]; auto].
  - destruct (_ =? 0); [destruct I|destruct I as [<-|[]]; auto].
  - unfold tx_outputs in I. destruct (rs_fail (res t)); [destruct I|]. apply in_map_iff in I. destruct I as (o & <- & _). auto.
  - unfold tx_inputs in I. apply in_app_or in I. destruct I as [I|I].
    + destruct (t_sender t); [destruct I as [<-|[]]; auto|destruct I].
    + destruct (rs_fail (res t)); [destruct I|]. apply in_map_iff in I. destruct I as (o & <- & _). auto.
Qed.

Lemma give_all outs : forall b, (forall a cur, bal0 b a cur + out_to a cur outs < 2 ^ 128) -> forall a cur, bal0 (fold_left give outs b) a cur = bal0 b a cur + out_to a cur outs.
Proof.
  intros b B a cur. pose proof (apply_ok b [] outs a cur (B a cur)) as E. unfold apply_balances in E. cbn [fold_left] in E. rewrite E. unfold in_from. cbn [fold_right]. lia.
Qed.
Lemma chain_ok H b log memos h : chain H b log memos h -> loose H log memos h /\
  forall a cur, received_sum a cur (map snd log) = bal0 b a cur + spent_sum a cur (map snd log).
Proof.
  induction 1 as [id outs B es|n P d id bl s log memos h C (IHL & IHB) LO V B es].
  - destruct (loose_step H [] [] 0 es 0) as (L & PM); auto.
    + split; [constructor|]. split; [constructor|]. split; [intros ? ? []|]. intros p h t a. split; [intros []|intros (? & ? & [] & _)].
    + intros e I. apply in_map_iff in I. destruct I as (o & <- & _). auto.
    + split; auto. intros a cur. rewrite app_nil_r in PM. apply (Permutation_map snd) in PM. rewrite rows_from_snd in PM.
      rewrite (received_perm _ _ _ _ PM), (spent_perm _ _ _ _ PM). destruct (received_outs a cur id 0 RECEIVE outs eq_refl) as (R1 & R2). fold es in R1, R2. rewrite R1, R2.
      unfold apply_balances. cbn [fold_left]. rewrite give_all; [cbn; lia|]. intros a0 cur0. cbn. apply B.
  - destruct (loose_step H log memos h es (h + 1)) as (L & PM); auto.
    + intros e I. eapply entries_height; eauto.
    + right. lia.
    + split; auto. intros a cur. apply (Permutation_map snd) in PM. rewrite map_app, rows_from_snd in PM.
      rewrite (received_perm _ _ _ _ PM), (spent_perm _ _ _ _ PM), received_app, spent_app, IHB. unfold es, block_entries. rewrite received_app, spent_app.
      destruct (outputs_sum a cur P id (h + 1) bl) as (-> & ->). destruct (inputs_sum a cur (h + 1) bl) as (-> & ->).
      pose proof (C29_balances_are_exact n P d bl s LO V a cur (B a cur)). lia.
Qed.
Lemma chain_logs H b log memos h : chain H b log memos h -> N.of_nat (List.length log) < 2 ^ 31 -> log_ok log /\ memos_ok H log memos /\ forall k e, In (k, e) log -> e_height e <= h.
Proof.
  intros C SZ. destruct (chain_ok _ _ _ _ _ C) as ((A & AM & R & M) & _). split; [|split].
  - constructor; auto.
    + intros k e I. apply R in I. apply I.
    + intros k e I. apply R in I. destruct I as (_ & _ & I). lia.
  - constructor; auto. assert (List.length memos <= List.length log)%nat; [|lia].
    rewrite <- (map_length (fun r : key * addr => (snd r, k_height (fst r), snd (fst r))) memos), <- (map_length fst log). apply NoDup_incl_length.
    + assert (ND : NoDup memos).
      { apply (NoDup_rev memos) || idtac. rewrite <- (rev_involutive memos). apply NoDup_rev. apply desc_nodup, desc_rev; auto. }
      assert (INJ : forall r r', In r memos -> In r' memos -> (snd r, k_height (fst r), snd (fst r)) = (snd r', k_height (fst r'), snd (fst r')) -> r = r').
      { intros (((p, x), t), a) (((p', x'), t'), a') I I'. unfold k_height. cbn [fst snd]. intros [= <- <- <-]. apply M in I, I'.
        destruct I as (e1 & m1 & I1 & M1 & ->), I' as (e2 & m2 & I2 & M2 & ->). assert (e1 = e2) by (eapply (log_fun log); eauto). subst e2. replace m2 with m1 by congruence. auto. }
      clear -ND INJ. induction ND as [|r l N1 N2 IH]; cbn [map]; constructor.
      * intros I. apply in_map_iff in I. destruct I as (r' & E & I). apply N1. replace r with r'; auto. apply INJ; [right|left|]; auto.
      * apply IH. intros; apply INJ; auto; right; auto.
    + intros k I. apply in_map_iff in I. destruct I as ((((p, x), t), a) & <- & I). unfold k_height. cbn [fst snd]. apply M in I. destruct I as (e & m & I & _). apply in_map_iff. exists (((a, x), t), e). auto.
  - intros k e I. apply R in I. apply I.
Qed.
Lemma asorted_nodup (log : list (key * entry)) : asorted key_cmp log -> NoDup log.
Proof. intros A. rewrite <- (rev_involutive log). apply NoDup_rev, desc_nodup, desc_rev; auto. Qed.
Lemma sums_filter a cur (log : list (key * entry)) :
  let l := filter (fun r => addr_eqb (e_address (snd r)) a && addr_eqb (e_contract (snd r)) cur) log in
  received_sum a cur (map snd l) = received_sum a cur (map snd log) /\ spent_sum a cur (map snd l) = spent_sum a cur (map snd log).
Proof.
  cbn zeta. induction log as [|r log (IH1 & IH2)]; [auto|]. cbn [filter]. destruct (addr_eqb (e_address (snd r)) a && addr_eqb (e_contract (snd r)) cur) eqn:E;
    unfold received_sum, spent_sum in *; cbn [map fold_right]; rewrite ?IH1, ?IH2, ?E; cbn [andb]; auto.
Qed.
