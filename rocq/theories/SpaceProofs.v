Require Import List Arith NArith ZArith Bool Lia Permutation Sorted.
From Verif Require Import SpaceModel SpaceSpec.
Import ListNotations.
Open Scope N_scope.

Lemma meta_eq_iff : forall a b, meta_eq a b = true <-> a = b.
Proof.
  induction a as [|x a IH]; intros [|y b]; cbn [meta_eq]; try (split; congruence).
  rewrite andb_true_iff, N.eqb_eq, IH. split; [intros [-> ->]; reflexivity|intros E; injection E; auto].
Qed.
Lemma same_list_iff : forall a b, same_list a b = true <-> a = b.
Proof.
  induction a as [|x a IH]; intros [|y b]; cbn [same_list]; try (split; congruence).
  rewrite andb_true_iff, N.eqb_eq, IH. split; [intros [-> ->]; reflexivity|intros E; injection E; auto].
Qed.
Lemma spells_length : forall F1 F2 n l y m, spells F1 F2 n l y m -> length l = (2 ^ n)%nat.
Proof. induction 1; [reflexivity|]. rewrite app_length. cbn [Nat.pow]. lia. Qed.
Lemma app_split : forall (A : Type) (a b c d : list A), length a = length c -> a ++ b = c ++ d -> a = c /\ b = d.
Proof.
  induction a as [|x a IH]; intros b [|z c] d Hl E; try discriminate; [auto|].
  injection E as -> E. injection Hl as Hl. destruct (IH _ _ _ Hl E) as [-> ->]. auto.
Qed.
Lemma spells_fun : forall F1 F2 n l y m y' m', spells F1 F2 n l y m -> spells F1 F2 n l y' m' -> y = y' /\ m = m'.
Proof.
  intros F1 F2 n l y m y' m' H; revert y' m'; induction H; intros y' m' H'.
  - inversion H'; subst; auto.
  - inversion H' as [|n0 a b ya ma yb mb Ha Hb Hy En El]; subst n0.
    pose proof (spells_length _ _ _ _ _ _ Ha) as La. pose proof (spells_length _ _ _ _ _ _ H) as Lb.
    apply app_split in El; [|congruence]. destruct El as [-> ->].
    destruct (IHspells1 _ _ Ha) as [_ <-]. destruct (IHspells2 _ _ Hb) as [_ <-].
    auto.
Qed.

(** *** Positions *)
Lemma in_indexed : forall ys y i, In (y, i) (indexed ys) <-> (i < length ys)%nat /\ nth i ys 0 = y.
Proof.
  intros ys. unfold indexed.
  assert (G : forall b y i, In (y, i) (combine ys (seq b (length ys))) <-> (b <= i < b + length ys)%nat /\ nth (i - b) ys 0 = y).
  { induction ys as [|z ys IH]; intros b y i; cbn [length seq combine In].
    - split; [tauto|lia].
    - rewrite IH. split.
      + intros [E|[H E]].
        * injection E as -> ->. split; [lia|]. now rewrite Nat.sub_diag.
        * split; [lia|]. replace (i - b)%nat with (S (i - S b)) by lia. exact E.
      + intros [H E]. destruct (Nat.eq_dec i b) as [->|Hn].
        * left. rewrite Nat.sub_diag in E. cbn [nth] in E. now subst.
        * right. split; [lia|]. replace (i - b)%nat with (S (i - S b)) in E by lia. exact E. }
  intros y i. rewrite G. rewrite Nat.sub_0_r. split; intros [H E]; split; auto; lia.
Qed.
Lemma snd_indexed : forall ys, map snd (indexed ys) = seq 0 (length ys).
Proof.
  intros ys. unfold indexed. generalize 0%nat. induction ys as [|z ys IH]; intros b; cbn; [reflexivity|]. now rewrite IH.
Qed.

(** *** Matching *)
Definition lefirst (a b : entry) : Prop := fst a <= fst b.
Lemma partners_in : forall yl pl r p q, In (p, q) (partners yl pl r) -> p = pl /\ In ((yl + 1) mod 2 ^ 32, q) r.
Proof.
  induction r as [|[yr pr] r IH]; intros p q H; cbn [partners] in H; [contradiction|].
  destruct (yr =? (yl + 1) mod 2 ^ 32) eqn:E.
  - apply N.eqb_eq in E. destruct H as [H|H].
    + injection H as <- <-. split; auto. left. now rewrite E.
    + destruct (IH _ _ H). split; auto. now right.
  - destruct (yl <? yr); [contradiction|]. destruct (IH _ _ H). split; auto. now right.
Qed.
Lemma partners_all : forall yl pl r q, yl + 1 < 2 ^ 32 -> StronglySorted lefirst r -> Forall (fun e => yl <= fst e) r ->
  In (yl + 1, q) r -> In (pl, q) (partners yl pl r).
Proof.
  induction r as [|[yr pr] r IH]; intros q Hb Hs Hf Hin; [contradiction|].
  cbn [partners]. rewrite N.mod_small by assumption.
  inversion Hs as [|? ? Hs' Hall]; subst. inversion Hf as [|? ? Hf0 Hf']; subst. cbn [fst] in Hf0.
  destruct (yr =? yl + 1) eqn:E.
  - destruct Hin as [H|H]; [injection H as -> ->; now left|]. right. auto.
  - apply N.eqb_neq in E. destruct Hin as [H|H]; [injection H as -> ->; congruence|].
    rewrite Forall_forall in Hall. pose proof (Hall _ H) as Hle. unfold lefirst in Hle; cbn [fst] in Hle.
    destruct (yl <? yr) eqn:E2; [apply N.ltb_lt in E2; lia|]. auto.
Qed.
Lemma matches_in : forall es p q, StronglySorted lefirst es -> Forall (fun e => fst e < 2 ^ 32) es ->
  (In (p, q) (matches es) <-> exists y, In (y, p) es /\ In (y + 1, q) es).
Proof.
  induction es as [|[yl pl] r IH]; intros p q Hs Hf; cbn [matches].
  - split; [contradiction|]. intros (y & H & _). contradiction.
  - inversion Hs as [|? ? Hs' Hall]; subst. inversion Hf as [|? ? Hf0 Hf']; subst. cbn [fst] in Hf0.
    rewrite in_app_iff, IH by assumption. split.
    + intros [H|(y & H1 & H2)].
      * destruct (partners_in _ _ _ _ _ H) as [-> H2]. exists yl. split; [now left|]. right.
        rewrite Forall_forall in Hall. pose proof (Hall _ H2) as Hle. unfold lefirst in Hle; cbn [fst] in Hle.
        destruct (N.lt_ge_cases (yl + 1) (2 ^ 32)) as [Hlt|Hge]; [now rewrite N.mod_small in H2|].
        assert (E : yl + 1 = 2 ^ 32) by lia. rewrite E, N.mod_same in Hle by discriminate. exfalso. clear -Hle E.
        assert (yl = 0) by lia. subst. discriminate E.
      * exists y. split; now right.
    + intros (y & H1 & H2). destruct H1 as [H1|H1].
      * injection H1 as -> ->. destruct H2 as [H2|H2]; [injection H2 as H2 _; lia|]. left.
        apply partners_all; auto. rewrite Forall_forall in Hf'. apply (Hf' _ H2).
      * right. exists y. split; auto. destruct H2 as [H2|H2]; [|assumption].
        injection H2 as -> ->. rewrite Forall_forall in Hall. pose proof (Hall _ H1) as Hle. unfold lefirst in Hle; cbn [fst] in Hle. lia.
Qed.
Lemma partners_snd : forall yl pl r p q, In (p, q) (partners yl pl r) -> In q (map snd r).
Proof. intros. destruct (partners_in _ _ _ _ _ H) as [_ H']. apply in_map_iff. eexists. split; [|exact H']. reflexivity. Qed.
Lemma partners_nodup : forall yl pl r, NoDup (map snd r) -> NoDup (partners yl pl r).
Proof.
  induction r as [|[yr pr] r IH]; intros H; cbn [partners]; [constructor|].
  cbn [map snd] in H. inversion H as [|? ? Hn H']; subst.
  destruct (yr =? _).
  - constructor; auto. intros Hin. apply Hn. eapply partners_snd; eauto.
  - destruct (yl <? yr); [constructor|auto].
Qed.
Lemma matches_first : forall es p q, In (p, q) (matches es) -> In p (map snd es) /\ In q (map snd es).
Proof.
  induction es as [|[yl pl] r IH]; intros p q H; cbn [matches] in H; [contradiction|].
  apply in_app_iff in H. cbn [map snd]. destruct H as [H|H].
  - split; [left; now destruct (partners_in _ _ _ _ _ H)|right; eapply partners_snd; eauto].
  - destruct (IH _ _ H). split; now right.
Qed.
Lemma nodup_app : forall (A : Type) (a b : list A), NoDup a -> NoDup b -> (forall x, In x a -> In x b -> False) -> NoDup (a ++ b).
Proof.
  induction a as [|x a IH]; intros b Ha Hb Hd; [assumption|]. inversion Ha; subst. cbn. constructor.
  - rewrite in_app_iff. intros [H|H]; [contradiction|]. apply (Hd x); auto. now left.
  - apply IH; auto. intros z Hz. apply Hd. now right.
Qed.
Lemma matches_nodup : forall es, NoDup (map snd es) -> NoDup (matches es).
Proof.
  induction es as [|[yl pl] r IH]; intros H; cbn [matches]; [constructor|].
  cbn [map snd] in H. inversion H as [|? ? Hn H']; subst.
  apply nodup_app; [now apply partners_nodup|auto|].
  intros [p q] H1 H2. destruct (partners_in _ _ _ _ _ H1) as [-> _]. apply Hn. now destruct (matches_first _ _ _ H2).
Qed.

(** *** std::sort: a permutation in which no entry is less than one before it *)
Definition sorts (srt : list meta -> list entry -> list entry) : Prop :=
  forall M l, Permutation l (srt M l) /\ StronglySorted (fun a b => sort_func M b a = false) (srt M l).
Lemma sorted_first : forall M l, StronglySorted (fun a b => sort_func M b a = false) l -> StronglySorted lefirst l.
Proof.
  induction 1 as [|a l H IH Hall]; constructor; auto.
  rewrite Forall_forall in *. intros b Hb. specialize (Hall b Hb). unfold sort_func, lefirst in *.
  destruct (fst b =? fst a) eqn:E; [apply N.eqb_eq in E; lia|]. apply N.ltb_ge in Hall. exact Hall.
Qed.

Lemma nth_map_lt : forall (A B : Type) (f : A -> B) l i d d', (i < length l)%nat -> nth i (map f l) d = f (nth i l d').
Proof. intros A B f l; induction l as [|a l IH]; intros [|i] d d' H; cbn in *; try lia; auto. apply IH. lia. Qed.

Lemma nodup_map : forall (A B : Type) (f : A -> B) l, (forall a b, In a l -> In b l -> f a = f b -> a = b) -> NoDup l -> NoDup (map f l).
Proof.
  intros A B f l H Hd. induction Hd as [|a l Hn Hd IH]; cbn [map]; constructor.
  - intros Hin. apply in_map_iff in Hin. destruct Hin as (b & E & Hb). apply Hn. rewrite <- (H b a); auto; [now right|now left].
  - apply IH. intros. apply H; auto; now right.
Qed.

Section Tables.
  Variable Or : oracle.
  Variable srt : list meta -> list entry -> list entry.
  Hypothesis Hsrt : sorts srt.
  Variables (k id : N).
  Hypothesis Hk : k <= 32.
  Variable X : list N.
  Notation spell := (spells (f1 Or k id) (f2 Or k)).

  Lemma land_mask : forall a, N.land a (kmask k) < 2 ^ 32.
  Proof.
    intros a. unfold kmask. replace (2 ^ k - 1) with (N.ones k) by (rewrite N.ones_equiv; lia). rewrite N.land_ones.
    eapply N.lt_le_trans; [apply N.mod_lt; apply N.pow_nonzero; discriminate|]. apply N.pow_le_mono_r; [discriminate|assumption].
  Qed.
  Lemma spell_bound : forall n l y m, spell n l y m -> y < 2 ^ 32.
  Proof. intros n l y m H. inversion H; subst; unfold f1, f2, outputs; cbn [fst]; apply land_mask. Qed.

  (** the entries of a table are exactly the proofs of that size made of values in X *)
  Record table (n : nat) (ys : list N) (M : list meta) (lv : list (list N)) : Prop := mk_table {
    t_ys : length ys = length lv;
    t_M : length M = length lv;
    t_ok : forall i, (i < length lv)%nat -> spell n (nth i lv []) (nth i ys 0) (nth i M []) /\ incl (nth i lv []) X;
    t_nodup : NoDup lv;
    t_all : forall l y m, spell n l y m -> incl l X -> In l lv }.

  Lemma table_sorted : forall n ys M lv, table n ys M lv ->
    let es := srt M (indexed ys) in
    StronglySorted lefirst es /\ Forall (fun e => fst e < 2 ^ 32) es /\ NoDup (map snd es) /\
    (forall y i, In (y, i) es <-> (i < length lv)%nat /\ nth i ys 0 = y).
  Proof.
    intros n ys M lv T es. destruct (Hsrt M (indexed ys)) as [Hp Hs]. fold es in Hp, Hs.
    assert (Hin : forall y i, In (y, i) es <-> (i < length lv)%nat /\ nth i ys 0 = y).
    { intros y i. rewrite <- (t_ys _ _ _ _ T), <- in_indexed. split; intros H.
      - eapply Permutation_in; [apply Permutation_sym; exact Hp|exact H].
      - eapply Permutation_in; [exact Hp|exact H]. }
    split; [|split; [|split; [|exact Hin]]].
    - eapply sorted_first; eauto.
    - apply Forall_forall. intros [y i] He. apply Hin in He. destruct He as [Hi <-]. cbn [fst].
      eapply spell_bound. apply (t_ok _ _ _ _ T i Hi).
    - eapply Permutation_NoDup; [apply Permutation_map; exact Hp|]. rewrite snd_indexed. apply seq_NoDup.
  Qed.

  Definition joined (lv : list (list N)) (LR : list (nat * nat)) : list (list N) := map (fun p => nth (fst p) lv [] ++ nth (snd p) lv []) LR.
  Lemma table_next : forall n ys M lv, table n ys M lv ->
    let LR := matches (srt M (indexed ys)) in
    let out := map (fun p => f2 Or k (nth (fst p) M []) (nth (snd p) M [])) LR in
    table (S n) (map fst out) (map snd out) (joined lv LR) /\ (forall p q, In (p, q) LR -> (p < length lv)%nat /\ (q < length lv)%nat).
  Proof.
    intros n ys M lv T LR out.
    destruct (table_sorted n ys M lv T) as (Hs & Hb & Hnd & Hin).
    assert (HLR : forall p q, In (p, q) LR <-> (p < length lv)%nat /\ (q < length lv)%nat /\ nth q ys 0 = nth p ys 0 + 1).
    { intros p q. unfold LR. rewrite matches_in by assumption. split.
      - intros (y & H1 & H2). apply Hin in H1. apply Hin in H2. destruct H1 as [? <-], H2 as [? ?]. auto.
      - intros (H1 & H2 & H3). exists (nth p ys 0). split; apply Hin; auto. }
    assert (Hlen : forall l y m, spell n l y m -> length l = (2 ^ n)%nat) by (intros; eapply spells_length; eauto).
    split; [|intros p q H; apply HLR in H; tauto].
    constructor.
    - unfold out, joined. now rewrite !map_length.
    - unfold out, joined. now rewrite !map_length.
    - intros i Hi. unfold joined in Hi. rewrite map_length in Hi.
      pose proof (nth_In LR (O, O) Hi) as Hn. destruct (nth i LR (O, O)) as [p q] eqn:E.
      apply HLR in Hn. destruct Hn as (Hp & Hq & Hy).
      unfold joined. rewrite (nth_map_lt _ _ _ _ _ [] (O, O)) by assumption. rewrite E. cbn [fst snd].
      unfold out. rewrite !map_map.
      rewrite (nth_map_lt _ _ (fun x => fst (f2 Or k (nth (fst x) M []) (nth (snd x) M []))) _ _ 0 (O, O)) by assumption.
      rewrite (nth_map_lt _ meta (fun x => snd (f2 Or k (nth (fst x) M []) (nth (snd x) M []))) _ _ [] (O, O)) by assumption. rewrite E. cbn [fst snd].
      destruct (t_ok _ _ _ _ T p Hp) as [Sp Ip]. destruct (t_ok _ _ _ _ T q Hq) as [Sq Iq]. split.
      + eapply halves; eauto.
      + apply incl_app; auto.
    - unfold joined. apply nodup_map; [|now apply matches_nodup].
      intros [p q] [p' q'] H H' E. cbn [fst snd] in E. apply HLR in H. apply HLR in H'. destruct H as (Hp & Hq & _), H' as (Hp' & Hq' & _).
      pose proof (Hlen _ _ _ (proj1 (t_ok _ _ _ _ T p Hp))). pose proof (Hlen _ _ _ (proj1 (t_ok _ _ _ _ T p' Hp'))).
      apply app_split in E; [|congruence]. destruct E as [E1 E2].
      pose proof (t_nodup _ _ _ _ T) as Hd. rewrite NoDup_nth in Hd.
      apply Hd in E1; [|assumption|assumption]. apply Hd in E2; [|assumption|assumption]. congruence.
    - intros l y m H Hi. inversion H as [|n' a b ya ma yb mb Ha Hb' Hy]; subst.
      assert (Ia : incl a X) by (intros z Hz; apply Hi, in_or_app; auto).
      assert (Ib : incl b X) by (intros z Hz; apply Hi, in_or_app; auto).
      destruct (In_nth _ _ [] (t_all _ _ _ _ T _ _ _ Ha Ia)) as (p & Hp & Ep).
      destruct (In_nth _ _ [] (t_all _ _ _ _ T _ _ _ Hb' Ib)) as (q & Hq & Eq).
      unfold joined. apply in_map_iff. exists (p, q). cbn [fst snd]. rewrite Ep, Eq. split; auto.
      apply HLR. repeat split; auto.
      destruct (t_ok _ _ _ _ T p Hp) as [Sp _]. destruct (t_ok _ _ _ _ T q Hq) as [Sq _]. rewrite Ep in Sp. rewrite Eq in Sq.
      destruct (spells_fun _ _ _ _ _ _ _ _ Ha Sp) as [<- _]. destruct (spells_fun _ _ _ _ _ _ _ _ Hb' Sq) as [<- _]. reflexivity.
  Qed.

  Lemma table_first : NoDup X -> table 0 (map fst (map (f1 Or k id) X)) (map snd (map (f1 Or k id) X)) (map (fun x => [x]) X).
  Proof.
    intros Hd. constructor; try (now rewrite !map_length).
    - intros i Hi. rewrite map_length in Hi. rewrite !map_map.
      rewrite (nth_map_lt _ _ (fun x => [x]) _ _ [] 0), (nth_map_lt _ _ (fun x => fst (f1 Or k id x)) _ _ 0 0), (nth_map_lt _ _ (fun x => snd (f1 Or k id x)) _ _ [] 0) by assumption.
      split; [constructor|]. intros z [<-|[]]. now apply nth_In.
    - apply nodup_map; auto. intros a b _ _ E. congruence.
    - intros l y m H Hi. inversion H; subst. apply in_map_iff. exists x. split; auto. apply Hi. now left.
  Qed.

  (** *** Expansion *)
  Lemma fold_app : forall lrs a b, fold_left (fun is lr => flat_map (fun i => let p := nth i lr (O, O) in [fst p; snd p]) is) lrs (a ++ b)
    = fold_left (fun is lr => flat_map (fun i => let p := nth i lr (O, O) in [fst p; snd p]) is) lrs a
      ++ fold_left (fun is lr => flat_map (fun i => let p := nth i lr (O, O) in [fst p; snd p]) is) lrs b.
  Proof. induction lrs as [|lr lrs IH]; intros a b; cbn [fold_left]; [reflexivity|]. rewrite flat_map_app. apply IH. Qed.
  Lemma expand_cons : forall lr lrs i, expand (lr :: lrs) i = expand lrs (fst (nth i lr (O, O))) ++ expand lrs (snd (nth i lr (O, O))).
  Proof. intros. unfold expand. cbn [fold_left flat_map app]. exact (fold_app lrs [fst (nth i lr (O, O))] [snd (nth i lr (O, O))]). Qed.
  Definition expands (lrs : list (list (nat * nat))) (lv : list (list N)) : Prop :=
    forall i, (i < length lv)%nat -> map (fun j => nth j X 0) (expand lrs i) = nth i lv [].

  Lemma tables_spec : forall c n ys M lrs lv, table n ys M lv -> expands lrs lv ->
    match tables Or srt c k ys M lrs with
    | None => forall l y m, spell (n + c) l y m -> incl l X -> False
    | Some (ys', M', lrs') => exists lv', table (n + c) ys' M' lv' /\ expands lrs' lv' /\ (c = O \/ lv' <> [])
    end.
  Proof.
    induction c as [|c IH]; intros n ys M lrs lv T HE; cbn [tables].
    - exists lv. rewrite Nat.add_0_r. auto.
    - unfold next_table. destruct (table_next n ys M lv T) as [T' Hlt]. cbv zeta in T', Hlt.
      destruct (matches (srt M (indexed ys))) as [|p0 LR] eqn:E.
      + intros l y m H Hi. replace (n + S c)%nat with (c + S n)%nat in H by lia.
        assert (G : forall c l y m, spell (c + S n) l y m -> incl l X -> exists l' y' m', spell (S n) l' y' m' /\ incl l' X).
        { clear. induction c as [|c IH]; intros l y m H Hi; [eauto|].
          cbn [Nat.add] in H. inversion H as [|? a b ? ? ? ? Ha Hb Hy]; subst. eapply IH; [exact Ha|]. intros z Hz. apply Hi, in_or_app; auto. }
        destruct (G _ _ _ _ H Hi) as (l' & y' & m' & H' & Hi'). destruct (t_all _ _ _ _ T' _ _ _ H' Hi').
      + remember (p0 :: LR) as L eqn:EL.
        assert (HE' : expands (L :: lrs) (joined lv L)).
        { intros i Hi. unfold joined in Hi. rewrite map_length in Hi. rewrite expand_cons, map_app.
          unfold joined. rewrite (nth_map_lt _ _ _ _ _ [] (O, O)) by assumption.
          pose proof (nth_In L (O, O) Hi) as Hn. destruct (nth i L (O, O)) as [p q]. cbn [fst snd].
          destruct (Hlt _ _ Hn). now rewrite !HE by assumption. }
        pose proof (IH (S n) _ _ _ _ T' HE') as R.
        destruct (tables Or srt c k _ _ (L :: lrs)) as [[[ys' M'] lrs']|] eqn:ET.
        * destruct R as (lv' & T2 & E2 & NE). exists lv'. replace (n + S c)%nat with (S n + c)%nat by lia. split; auto. split; auto. right.
          destruct NE as [->|NE]; [|assumption]. cbn [tables] in ET. injection ET as <- <- <-. intros ->.
          pose proof (t_ys _ _ _ _ T2) as HL. rewrite EL in HL. cbn in HL. discriminate.
        * replace (n + S c)%nat with (S n + c)%nat by lia. exact R.
  Qed.

  (** *** Results *)
  Lemma collect_nil : forall M lrs es seen, fst (collect X M lrs seen es) = [] ->
    snd (collect X M lrs seen es) = [] /\ forall y i, In (y, i) es -> In (nth i M []) seen.
  Proof.
    induction es as [|[y i] es IH]; intros seen H; cbn [collect] in *; [split; [reflexivity|contradiction]|].
    destruct (existsb (meta_eq (nth i M [])) seen) eqn:E.
    - destruct (IH _ H) as [H1 H2]. split; auto. intros y' i' [Hi|Hi]; [|eauto].
      injection Hi as <- <-. apply existsb_exists in E. destruct E as (m & Hm & Em). apply meta_eq_iff in Em. now rewrite Em.
    - destruct (collect X M lrs (nth i M [] :: seen) es). discriminate.
  Qed.
  Let Y0 := map fst (map (f1 Or k id) X).
  Let M0 := map snd (map (f1 Or k id) X).
  Lemma first_expands : expands [] (map (fun x => [x]) X).
  Proof.
    intros i Hi. rewrite map_length in Hi. unfold expand. cbn [fold_left map].
    now rewrite (nth_map_lt _ _ (fun x => [x]) _ _ [] 0) by assumption.
  Qed.

  (** one result: it is a proof made of values of X, and no other proof made of them gives other data *)
  Theorem compute_full_one : forall y m xo, NoDup X -> compute_full Or srt k X Y0 M0 = Some ([(y, m)], xo) ->
    exists m', spell 8 xo y m' /\ m = firstn N_META_OUT m' /\ incl xo X /\ forall l y' m'', spell 8 l y' m'' -> incl l X -> m'' = m'.
  Proof.
    intros y m xo Hd H. unfold compute_full in H.
    pose proof (tables_spec (N_TABLE - 1) 0 _ _ [] _ (table_first Hd) first_expands) as R. fold Y0 M0 in R.
    destruct (tables Or srt (N_TABLE - 1) k Y0 M0 []) as [[[ys M] lrs]|]; [|discriminate].
    destruct R as (lv & T & HE & _). change (0 + (N_TABLE - 1))%nat with 8%nat in T.
    destruct (table_sorted 8 ys M lv T) as (_ & _ & _ & Hin). cbv zeta in Hin.
    destruct (srt M (indexed ys)) as [|[y0 i0] es]; cbn [collect] in H; [discriminate|].
    cbn [existsb] in H. destruct (collect X M lrs [nth i0 M []] es) as [out xs] eqn:EC.
    assert (H' := H). apply (f_equal (fun o => match o with Some (a, _) => a | None => [] end)) in H'. cbn in H'.
    injection H' as -> Hm Ho.
    apply (f_equal (fun o => match o with Some (_, b) => b | None => [] end)) in H. cbn in H.
    assert (Hc : fst (collect X M lrs [nth i0 M []] es) = []) by (rewrite EC; exact Ho).
    destruct (collect_nil _ _ _ _ Hc) as [Hx Hall]. rewrite EC in Hx. cbn [snd] in Hx. subst xs. rewrite app_nil_r in H.
    destruct (proj1 (Hin y i0) (or_introl eq_refl)) as [Hi0 Hy0].
    rewrite HE in H by assumption. subst xo.
    destruct (t_ok _ _ _ _ T i0 Hi0) as [S0 I0]. rewrite Hy0 in S0.
    exists (nth i0 M []). split; [exact S0|]. split; [symmetry; exact Hm|]. split; [exact I0|].
    intros l y' m'' Hl Hi.
    destruct (In_nth _ _ [] (t_all _ _ _ _ T _ _ _ Hl Hi)) as (j & Hj & Ej).
    destruct (t_ok _ _ _ _ T j Hj) as [Sj _]. rewrite Ej in Sj. destruct (spells_fun _ _ _ _ _ _ _ _ Hl Sj) as [_ ->].
    destruct (proj2 (Hin (nth j ys 0) j) (conj Hj eq_refl)) as [E|E]; [now injection E as _ <-|].
    destruct (Hall _ _ E) as [E'|[]]. now symmetry.
  Qed.
  Theorem compute_full_only : forall l y m, NoDup X -> spell 8 l y m -> incl l X -> (forall l' y' m', spell 8 l' y' m' -> incl l' X -> l' = l) ->
    compute_full Or srt k X Y0 M0 = Some ([(y, firstn N_META_OUT m)], l).
  Proof.
    intros l y m Hd Hl Hi Hu. unfold compute_full.
    pose proof (tables_spec (N_TABLE - 1) 0 _ _ [] _ (table_first Hd) first_expands) as R. fold Y0 M0 in R.
    destruct (tables Or srt (N_TABLE - 1) k Y0 M0 []) as [[[ys M] lrs]|]; [|exfalso; eapply R; eauto].
    destruct R as (lv & T & HE & [R|NE]); [discriminate|]. change (0 + (N_TABLE - 1))%nat with 8%nat in T.
    destruct (table_sorted 8 ys M lv T) as (_ & _ & Hnd & Hin). cbv zeta in Hin, Hnd.
    assert (Hone : forall j, (j < length lv)%nat -> nth j lv [] = l).
    { intros j Hj. destruct (t_ok _ _ _ _ T j Hj) as [Sj Ij]. eapply Hu; eauto. }
    destruct (srt M (indexed ys)) as [|[y0 i0] es] eqn:ES.
    - exfalso. destruct lv as [|l0 lv0]; [now apply NE|]. destruct (proj2 (Hin (nth 0 ys 0) O)). split; [cbn; lia|reflexivity].
    - destruct (proj1 (Hin y0 i0) (or_introl eq_refl)) as [Hi0 Hy0].
      assert (Hes : forall y' i', In (y', i') es -> False).
      { intros y' i' He. destruct (proj1 (Hin y' i') (or_intror He)) as [Hi' _].
        pose proof (t_nodup _ _ _ _ T) as Hd'. rewrite NoDup_nth in Hd'.
        assert (i' = i0) by (apply Hd'; auto; rewrite !Hone by assumption; reflexivity). subst i'.
        cbn [map snd] in Hnd. inversion Hnd as [|? ? Hn _]; subst. apply Hn. apply in_map_iff. now exists (y', i0). }
      destruct es as [|[y1 i1] es]; [|exfalso; eapply Hes; now left].
      cbn [collect existsb]. rewrite HE, Hone, app_nil_r by assumption.
      destruct (t_ok _ _ _ _ T i0 Hi0) as [S0 _]. rewrite Hone, Hy0 in S0 by assumption.
      destruct (spells_fun _ _ _ _ _ _ _ _ Hl S0) as [<- <-]. reflexivity.
  Qed.
End Tables.
