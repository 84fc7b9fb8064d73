(** Proofs about the VDF points a node builds on. *)
Require Import List Arith NArith Bool Lia.
Import ListNotations.
From Verif Require Import VdfModel VdfSpec VdfProofs.

Section NEXT.
  Variable H : N -> N.
  Variable H2 : N -> N -> N.
  Variables (infuse_delay commit_delay max_vdf_count : nat) (vdf_segment_size : N) (block_iters : N -> N) (get_header : N -> option block)
            (well_signed : proof -> bool).
  Notation verify_vdf := (verify_vdf commit_delay vdf_segment_size block_iters get_header well_signed).
  Notation find_infusion := (find_infusion infuse_delay commit_delay block_iters get_header).
  Notation intervals := (intervals infuse_delay commit_delay block_iters get_header).
  Notation run := (run H H2 commit_delay vdf_segment_size block_iters get_header well_signed).
  Notation step := (step H H2 commit_delay vdf_segment_size block_iters get_header well_signed).
  Notation extend := (extend infuse_delay commit_delay block_iters get_header).

  Lemma w64_small n : (n < 2 ^ 64)%N -> w64 n = n.
  Proof. intros L. unfold w64. now apply N.mod_small. Qed.
  Lemma w64_same a b n : (a < 2 ^ 64)%N -> (b < 2 ^ 64)%N -> w64 (a + n) = w64 (b + n) -> a = b.
  Proof.
    unfold w64. intros A B E. set (M := (2 ^ 64)%N) in *. assert (M0 : M <> 0%N) by (unfold M; discriminate).
    pose proof (N.div_mod (a + n) M M0) as P. pose proof (N.div_mod (b + n) M M0) as Q. rewrite E in P.
    set (r := ((b + n) mod M)%N) in *. set (x := ((a + n) / M)%N) in *. set (y := ((b + n) / M)%N) in *.
    assert (x = y \/ x + 1 <= y \/ y + 1 <= x)%N as [K|[K|K]] by lia.
    - rewrite K in P. lia.
    - assert (M * (x + 1) <= M * y)%N by (apply N.mul_le_mono_l; exact K). lia.
    - assert (M * (y + 1) <= M * x)%N by (apply N.mul_le_mono_l; exact K). lia.
  Qed.

  (** ** what the node holds *)
  (** positions of the outputs, and what an output was made from *)
  Variable pos : N -> N.
  Variable source : N -> N * (N * N).
  Definition pt_says (q : point) : Prop :=
    v_start q = pos (v_input q) /\ (v_start q + v_num_iters q = pos (v_output q))%N /\ (pos (v_output q) < 2 ^ 64)%N /\
    source (v_output q) = (v_input q, (v_prev q, v_num_iters q)) /\ v_num_iters q <> 0%N.
  Definition proof_says (p : proof) : Prop :=
    p_start p = pos (p_input p) /\ (p_start p + p_num_iters p = pos (get_output p))%N /\ (pos (get_output p) < 2 ^ 64)%N /\
    source (get_output p) = (p_input p, (p_prev p, p_num_iters p)).
  Definition ev_says (e : event) : Prop := match e with EvProof p _ _ _ => proof_says p | EvFinal _ => True end.

  Definition held (nd : node) : Prop := tree nd = index nd /\ NoDup (map v_output (index nd)) /\ Forall pt_says (index nd).

  Lemma nodup_filter (f : point -> bool) l : NoDup (map v_output l) -> NoDup (map v_output (filter f l)).
  Proof.
    induction l as [|q l IH]; cbn; [auto|]. inversion 1 as [|x y A B]; subst. destruct (f q); [|auto]. cbn. constructor; [|auto].
    intros I. apply A. apply in_map_iff in I as (z & E & I). apply filter_In in I as [I _]. rewrite <- E. now apply in_map.
  Qed.
  Lemma nodup_eq l q r : NoDup (map v_output l) -> In q l -> In r l -> v_output q = v_output r -> q = r.
  Proof.
    induction l as [|x l IH]; cbn; [intros _ []|]. inversion 1 as [|a b A B]; subst. intros [->|I] [->|J] E; auto.
    - exfalso. apply A. rewrite E. now apply in_map.
    - exfalso. apply A. rewrite <- E. now apply in_map.
  Qed.

  Lemma nodup_snoc (l : list N) y : NoDup l -> ~ In y l -> NoDup (l ++ [y]).
  Proof.
    induction l as [|x l IH]; intros D A; cbn; [constructor; [intros []|constructor]|].
    inversion D as [|x' l' B C]; subst. constructor.
    - intros I. apply in_app_iff in I as [I|[I|[]]]; [auto|]. apply A. left. auto.
    - apply IH; [assumption|]. intros I. apply A. now right.
  Qed.
  Lemma verify_nonzero p : verify_vdf p = true -> p_num_iters p <> 0%N.
  Proof.
    unfold VdfModel.verify_vdf. rewrite !andb_true_iff. intros (((((_ & _) & A) & _) & _) & _).
    apply negb_true_iff, N.eqb_neq in A. exact A.
  Qed.
  Lemma held_step nd e : held nd -> ev_says e -> held (step nd e).
  Proof.
    intros (T & D & S0) E. destruct e as [p recv pa sched|k]; cbn [VdfModel.step].
    - destruct (find_vdf_point nd (p_input p) (get_output p)) eqn:F; [split; auto|].
      destruct (verify_vdf p) eqn:V; [|split; auto].
      destruct (verify_vdf_cpu H H2 pa sched p) as [[|]|]; [|split; auto|split; auto].
      cbn in E. destruct E as (E1 & E2 & E3 & E4). unfold add_point, held. cbn [tree index].
      split; [now rewrite T|]. split.
      + rewrite map_app. cbn [map point_of v_output].
        assert (A : ~ In (get_output p) (map v_output (index nd))).
        { intros I. apply in_map_iff in I as (q & Q & I). rewrite Forall_forall in S0. destruct (S0 q I) as (_ & _ & _ & Z & _).
          rewrite Q, E4 in Z. injection Z as Z _ _. unfold find_vdf_point in F.
          assert (J : In q (with_output (get_output p) (tree nd))).
          { unfold with_output. apply filter_In. rewrite T. split; [exact I|]. now apply N.eqb_eq. }
          pose proof (find_none _ _ F q J) as W. cbn in W. rewrite <- Z, Q, !N.eqb_refl in W. discriminate. }
        now apply nodup_snoc.
      + apply Forall_app. split; [exact S0|]. constructor; [|constructor]. unfold pt_says, point_of. cbn.
        repeat (split; [assumption|]). now apply verify_nonzero.
    - unfold held. cbn [tree index]. split; [|split].
      + rewrite T. apply filter_ext_in. intros q I. f_equal.
        set (gone := filter (fun q => N.leb (v_end q) k) (index nd)).
        destruct (N.leb (v_end q) k) eqn:L.
        * apply existsb_exists. exists q. split; [unfold gone; apply filter_In; auto|apply N.eqb_refl].
        * destruct (existsb _ gone) eqn:X; [|reflexivity]. apply existsb_exists in X as (g & G & Y). apply N.eqb_eq in Y.
          unfold gone in G. apply filter_In in G as [G W]. rewrite (nodup_eq _ g q D G I Y) in W. congruence.
      + now apply nodup_filter.
      + rewrite Forall_forall in *. intros q I. apply filter_In in I as [I _]. auto.
  Qed.
  Lemma held_run l : Forall ev_says l -> held (run l).
  Proof.
    unfold VdfModel.run. assert (G : forall l nd, Forall ev_says l -> held nd -> held (fold_left step l nd)).
    { induction l0 as [|e l0 IH]; intros nd F P; cbn [fold_left]; [exact P|]. inversion F; subst.
      apply IH; [assumption|]. now apply held_step. }
    intros F. apply G; [exact F|]. split; [reflexivity|]. split; constructor.
  Qed.

  (** ** the search *)
  Variable nd : node.
  Hypothesis HD : held nd.
  Variable b : block.
  Hypothesis BP : pos (b_vdf_output b) = b_vdf_iters b.
  Hypothesis BS : (b_vdf_iters b < 2 ^ 64)%N.
  Notation at_level l j := (b_vdf_iters b + total (firstn j l))%N.

  Lemma pt_end q : In q (index nd) -> v_end q = pos (v_output q) /\ pt_says q.
  Proof.
    intros I. destruct HD as (_ & _ & F). rewrite Forall_forall in F. pose proof (F q I) as P.
    destruct P as (A & B & C & D & E). split; [|repeat split; assumption]. unfold v_end. rewrite B. now apply w64_small.
  Qed.

  Record inv (i : nat) (l : list (N * N)) (m : fmap) : Prop := {
    iv_int : intervals b i = Some l;
    iv_pos : Forall (fun e => snd e <> 0%N) l;
    iv_small : (at_level l i < 2 ^ 64)%N;
    iv_base : In (b_vdf_output b, None) m;
    iv_in : forall x v, In (x, v) m ->
      match v with
      | None => x = b_vdf_output b
      | Some q => x = v_output q /\ In q (index nd) /\
                  exists j, (j < i)%nat /\ nth_error l j = Some (v_prev q, v_num_iters q) /\ v_end q = at_level l (S j) /\
                            exists w, In (v_input q, w) m
      end }.
  Definition level (i : nat) (l : list (N * N)) (m : fmap) (q : point) : Prop :=
    In (v_output q, Some q) m /\ v_end q = at_level l (S i) /\ nth_error l i = Some (v_prev q, v_num_iters q).

  Lemma lookup_some x m v : lookup x m = Some v -> In (x, v) m.
  Proof.
    unfold lookup. destruct (find _ m) as [[y w]|] eqn:F; [|discriminate]. intros [= <-].
    apply find_some in F as [I E]. cbn in E. apply N.eqb_eq in E. now subst.
  Qed.
  Lemma lookup_in x m v : In (x, v) m -> exists w, lookup x m = Some w.
  Proof.
    intros I. unfold lookup. destruct (find _ m) as [[y w]|] eqn:F; [exists w; reflexivity|].
    pose proof (find_none _ _ F _ I) as Z. cbn in Z. rewrite N.eqb_refl in Z. discriminate.
  Qed.

  Lemma total_cons e l : total (e :: l) = (snd e + total l)%N.
  Proof. reflexivity. Qed.
  Lemma total_firstn_S : forall l j e, nth_error l j = Some e -> total (firstn (S j) l) = (total (firstn j l) + snd e)%N.
  Proof.
    induction l as [|x l IH]; intros [|j] e E; try discriminate.
    - injection E as ->. cbn [firstn]. rewrite total_cons. cbn. lia.
    - cbn [nth_error] in E. cbn [firstn]. rewrite !total_cons. cbn [firstn] in IH. rewrite (IH _ _ E). lia.
  Qed.
  Lemma firstn_grow l : Forall (fun e : N * N => snd e <> 0%N) l -> forall a c, (a < c)%nat -> (c <= length l)%nat -> (total (firstn a l) < total (firstn c l))%N.
  Proof.
    induction 1 as [|x l P F IH]; intros a c L1 L2; cbn in L2; [lia|]. destruct c as [|c]; [lia|]. destruct a as [|a].
    - cbn [firstn]. rewrite total_cons. cbn. lia.
    - cbn [firstn]. rewrite !total_cons. specialize (IH a c ltac:(lia) ltac:(lia)). lia.
  Qed.
  Lemma level_inj i l a c : length l = i -> Forall (fun e : N * N => snd e <> 0%N) l -> (a <= i)%nat -> (c <= i)%nat ->
    at_level l a = at_level l c -> a = c.
  Proof.
    intros L P A C E. destruct (Nat.lt_total a c) as [K|[K|K]]; [|exact K|].
    - pose proof (firstn_grow l P a c K ltac:(lia)). lia.
    - pose proof (firstn_grow l P c a K ltac:(lia)). lia.
  Qed.

  (** the position of what is in the map *)
  Lemma map_pos i l m x v : inv i l m -> In (x, v) m ->
    exists j, (j <= i)%nat /\ pos x = at_level l j /\
      match v with None => j = 0%nat | Some q => x = v_output q /\ In q (index nd) /\ exists k, j = S k /\ nth_error l k = Some (v_prev q, v_num_iters q) end.
  Proof.
    intros V I. pose proof (iv_in _ _ _ V x v I) as S0. destruct v as [q|].
    - destruct S0 as (-> & Q & j & L & N0 & E & _). exists (S j). split; [lia|].
      split; [rewrite <- E; symmetry; apply (pt_end q Q)|]. split; [reflexivity|]. split; [exact Q|]. exists j. auto.
    - subst x. exists 0%nat. split; [lia|]. split; [|reflexivity]. cbn. rewrite BP. lia.
  Qed.

  (** one round *)
  Definition round_step (infuse num : N) : fmap * list point -> point -> fmap * list point :=
    fun '(m, new) q =>
      if match lookup (v_input q) m with Some _ => true | None => false end && N.eqb (v_prev q) infuse && N.eqb (v_num_iters q) num
      then ((v_output q, Some q) :: m, new ++ [q]) else (m, new).
  Definition round (infuse num : N) (qs : list point) (s : fmap * list point) : fmap * list point := fold_left (round_step infuse num) qs s.
  Lemma round_cons infuse num q qs s : round infuse num (q :: qs) s = round infuse num qs (round_step infuse num s q).
  Proof. reflexivity. Qed.
  Definition taken (infuse num : N) (m0 : fmap) (q : point) : Prop :=
    In q (index nd) /\ v_prev q = infuse /\ v_num_iters q = num /\ exists w, In (v_input q, w) m0.

  Lemma round_spec i l m0 infuse num : inv i l m0 -> num <> 0%N -> find_infusion b i = Some (infuse, num) ->
    forall qs, (forall q, In q qs -> In q (index nd) /\ v_end q = w64 (at_level l i + num)) ->
    forall m new, (forall x v, In (x, v) m -> In (x, v) m0 \/ exists q, v = Some q /\ x = v_output q /\ In q new) ->
                  incl m0 m -> (forall q, In q new -> taken infuse num m0 q /\ In (v_output q, Some q) m /\ v_end q = w64 (at_level l i + num)) ->
    forall m' new', round infuse num qs (m, new) = (m', new') ->
    (forall x v, In (x, v) m' -> In (x, v) m0 \/ exists q, v = Some q /\ x = v_output q /\ In q new') /\
    incl m0 m' /\ (forall q, In q new' -> taken infuse num m0 q /\ In (v_output q, Some q) m' /\ v_end q = w64 (at_level l i + num)) /\
    (forall q, In q new -> In q new') /\
    (forall q, In q qs -> taken infuse num m0 q -> In q new').
  Proof.
    intros V NZ FI. induction qs as [|q qs IH]; intros QS m new A B C m' new'; [|rewrite round_cons].
    - intros [= <- <-]. repeat (split; [assumption|]). split; [auto|]. intros q [].
    - unfold round_step.
      destruct (match lookup (v_input q) m with Some _ => true | None => false end && N.eqb (v_prev q) infuse && N.eqb (v_num_iters q) num) eqn:G.
      + rewrite !andb_true_iff in G. destruct G as ((G1 & G2) & G3). apply N.eqb_eq in G2. apply N.eqb_eq in G3.
        destruct (lookup (v_input q) m) as [w|] eqn:K; [|discriminate]. apply lookup_some in K.
        destruct (QS q (or_introl eq_refl)) as [Q E].
        assert (TK : taken infuse num m0 q).
        { split; [exact Q|]. split; [exact G2|]. split; [exact G3|].
          destruct (A _ _ K) as [O|(r & -> & X & R)]; [exists w; exact O|]. exfalso.
          (* an input made in this round would be at the same position *)
          destruct (C r R) as (_ & _ & ER). destruct (pt_end q Q) as [PQ (S1 & S2 & S3 & _ & _)]. destruct (C r R) as ((RI & _) & _ & _).
          destruct (pt_end r RI) as [PR _]. rewrite PQ in E. rewrite PR in ER. rewrite <- X in ER. rewrite <- S1 in ER. lia. }
        assert (INV2 : forall x v, In (x, v) ((v_output q, Some q) :: m) -> In (x, v) m0 \/ exists q0, v = Some q0 /\ x = v_output q0 /\ In q0 (new ++ [q])).
        { intros x v [[= <- <-]|I]; [right; exists q; repeat split; apply in_or_app; right; now left|].
          destruct (A x v I) as [O|(r & -> & -> & R)]; [now left|]. right. exists r. repeat split. apply in_or_app. now left. }
        specialize (IH (fun q0 I => QS q0 (or_intror I)) ((v_output q, Some q) :: m) (new ++ [q]) INV2
                       (fun z Z => or_intror (B z Z))).
        assert (CC : forall r, In r (new ++ [q]) -> taken infuse num m0 r /\ In (v_output r, Some r) ((v_output q, Some q) :: m) /\ v_end r = w64 (at_level l i + num)).
        { intros r R. apply in_app_iff in R as [R|[<-|[]]].
          - destruct (C r R) as (X & Y & Z). split; [exact X|]. split; [now right|exact Z].
          - split; [exact TK|]. split; [now left|exact E]. }
        intros FL. destruct (IH CC m' new' FL) as (I1 & I2 & I3 & I4 & I5).
        repeat (split; [assumption|]). split; [intros r R; apply I4, in_or_app; now left|].
        intros r [<-|R] T; [apply I4, in_or_app; right; now left|now apply I5].
      + specialize (IH (fun q0 I => QS q0 (or_intror I)) m new A B C). intros FL. destruct (IH m' new' FL) as (I1 & I2 & I3 & I4 & I5).
        repeat (split; [assumption|]). intros r [<-|R] T; [|now apply I5]. exfalso.
        destruct T as (_ & T2 & T3 & w & T4). destruct (lookup_in _ _ _ (B _ T4)) as [w' W]. rewrite W, T2, T3, !N.eqb_refl in G. discriminate.
  Qed.

  (** the points a round may add are just one level above *)
  Lemma taken_level i l m0 infuse num q : inv i l m0 -> taken infuse num m0 q -> v_end q = w64 (at_level l i + num) ->
    pos (v_input q) = at_level l i /\ v_end q = (at_level l i + num)%N.
  Proof.
    intros V (Q & <- & <- & w & I) E. destruct (map_pos _ _ _ _ _ V I) as (j & J & P & _).
    destruct (pt_end q Q) as [PE (S1 & S2 & S3 & _ & NZ)].
    pose proof (intervals_length _ _ _ _ _ _ _ (iv_int _ _ _ V)) as L.
    assert (SJ : (at_level l j <= at_level l i)%N).
    { destruct (Nat.eq_dec j i) as [->|N0]; [lia|]. pose proof (firstn_grow l (iv_pos _ _ _ V) j i ltac:(lia) ltac:(lia)). lia. }
    pose proof (iv_small _ _ _ V) as SM.
    assert (E2 : w64 (at_level l j + v_num_iters q) = w64 (at_level l i + v_num_iters q)).
    { rewrite <- E, <- P, <- S1. unfold v_end. reflexivity. }
    apply w64_same in E2; [|lia|lia]. rewrite P, E2. split; [reflexivity|]. rewrite PE, <- S2, S1, P, E2. reflexivity.
  Qed.

  Lemma inv_next i l m0 infuse num m' new : inv i l m0 -> num <> 0%N -> find_infusion b i = Some (infuse, num) -> new <> [] ->
    (forall x v, In (x, v) m' -> In (x, v) m0 \/ exists q, v = Some q /\ x = v_output q /\ In q new) -> incl m0 m' ->
    (forall q, In q new -> taken infuse num m0 q /\ In (v_output q, Some q) m' /\ v_end q = w64 (at_level l i + num)) ->
    inv (S i) (l ++ [(infuse, num)]) m' /\ Forall (level i (l ++ [(infuse, num)]) m') new.
  Proof.
    intros V NZ FI NE A B C. pose proof (intervals_length _ _ _ _ _ _ _ (iv_int _ _ _ V)) as L.
    assert (F1 : forall j, (j <= i)%nat -> firstn j (l ++ [(infuse, num)]) = firstn j l).
    { intros j J. rewrite firstn_app. replace (j - length l)%nat with 0%nat by lia. cbn. now rewrite app_nil_r. }
    assert (F2 : firstn (S i) (l ++ [(infuse, num)]) = l ++ [(infuse, num)]).
    { apply firstn_all2. rewrite app_length. cbn. lia. }
    assert (T2 : at_level (l ++ [(infuse, num)]) (S i) = (at_level l i + num)%N).
    { rewrite F2, total_app, <- L, firstn_all. cbn. lia. }
    assert (LV : forall q, In q new -> pos (v_input q) = at_level l i /\ v_end q = (at_level l i + num)%N).
    { intros q Q. destruct (C q Q) as (X & _ & Z). now apply (taken_level i l m0 infuse num q V X). }
    assert (NE2 : nth_error (l ++ [(infuse, num)]) i = Some (infuse, num)).
    { rewrite nth_error_app2 by lia. replace (i - length l)%nat with 0%nat by lia. reflexivity. }
    split.
    - constructor.
      + cbn [VdfProofs.intervals]. rewrite (iv_int _ _ _ V), FI. reflexivity.
      + apply Forall_app. split; [apply (iv_pos _ _ _ V)|]. constructor; [exact NZ|constructor].
      + rewrite T2. destruct new as [|q new]; [congruence|]. destruct (LV q (or_introl eq_refl)) as [_ E].
        destruct (C q (or_introl eq_refl)) as ((Q & _) & _ & _). destruct (pt_end q Q) as [PE (_ & _ & S3 & _)]. rewrite <- E, PE. exact S3.
      + apply B. apply (iv_base _ _ _ V).
      + intros x v I. destruct (A x v I) as [O|(q & -> & -> & Q)].
        * pose proof (iv_in _ _ _ V x v O) as P. destruct v as [q|]; [|exact P]. destruct P as (-> & Q & j & J & NJ & E & w & W).
          split; [reflexivity|]. split; [exact Q|]. exists j. split; [lia|]. split; [rewrite nth_error_app1 by lia; exact NJ|].
          split; [rewrite F1 by lia; exact E|]. exists w. now apply B.
        * destruct (C q Q) as ((QI & <- & <- & w & W) & O & _). split; [reflexivity|]. split; [exact QI|]. exists i.
          split; [lia|]. split; [exact NE2|]. split; [|exists w; now apply B].
          destruct (LV q Q) as [_ ->]. symmetry. exact T2.
    - apply Forall_forall. intros q Q. destruct (C q Q) as ((QI & P1 & P2 & _) & O & _). split; [exact O|].
      split; [destruct (LV q Q) as [_ ->]; symmetry; exact T2|]. rewrite NE2. congruence.
  Qed.

  Lemma extend_spec : forall n i l m peaks m' peaks',
    inv i l m -> (i = 0%nat -> peaks = []) -> (forall k, i = S k -> peaks <> [] /\ Forall (level k l m) peaks) ->
    extend nd b n i (at_level l i) m peaks = Some (m', peaks') ->
    exists i' l', (i' <= i + n)%nat /\ inv i' l' m' /\ (i' = 0%nat -> peaks' = []) /\ (forall k, i' = S k -> peaks' <> [] /\ Forall (level k l' m') peaks').
  Proof.
    induction n as [|n IH]; intros i l m peaks m' peaks' V P0 PS; cbn [VdfModel.extend].
    - intros [= <- <-]. exists i, l. split; [lia|]. auto.
    - destruct (find_infusion b i) as [[infuse num]|] eqn:FI; [|discriminate].
      change (fold_left _ (with_iters (w64 (at_level l i + num)) (index nd)) (m, []))
        with (round infuse num (with_iters (w64 (at_level l i + num)) (index nd)) (m, [])).
      destruct (N.eq_dec num 0%N) as [Z|NZ].
      { (* no point has zero iterations *)
        assert (G : forall qs m0, incl qs (index nd) -> round infuse num qs (m0, []) = (m0, [])).
        { induction qs as [|q qs IQ]; intros m0 I; [reflexivity|rewrite round_cons].
          assert (E : round_step infuse num (m0, []) q = (m0, [])).
          { unfold round_step. destruct (pt_end q (I q (or_introl eq_refl))) as [_ (_ & _ & _ & _ & NZ)].
            replace (N.eqb (v_num_iters q) num) with false by (symmetry; apply N.eqb_neq; congruence). now rewrite andb_false_r. }
          rewrite E. apply IQ. intros z Y. apply I. now right. }
        rewrite G by (intros q I; unfold with_iters in I; apply filter_In in I as [I _]; exact I).
        intros [= <- <-]. exists i, l. split; [lia|]. auto. }
      pose proof (round_spec i l m infuse num V NZ FI (with_iters (w64 (at_level l i + num)) (index nd))) as R.
      specialize (R (fun q I => ltac:(unfold with_iters in I; apply filter_In in I as [I E]; apply N.eqb_eq in E; exact (conj I E)))).
      specialize (R m [] (fun x v I => or_introl I) (fun z Y => Y) (fun q I => match I with end)).
      destruct (round infuse num (with_iters (w64 (at_level l i + num)) (index nd)) (m, [])) as [m1 new] eqn:RR.
      destruct (R m1 new RR) as (R1 & R2 & R3 & _ & R5).
      destruct new as [|q new].
      + intros [= <- <-].
        assert (M : forall x v, In (x, v) m1 -> In (x, v) m).
        { intros x v I. destruct (R1 x v I) as [O|(q & _ & _ & [])]. exact O. }
        exists i, l. split; [lia|]. split; [|split; [exact P0|]].
        * destruct V as [V1 V2 V3 V4 V5]. constructor; auto. intros x v I. specialize (V5 x v (M x v I)).
          destruct v as [q|]; [|exact V5]. destruct V5 as (X & Q & j & J & N0 & E & w & W). split; [exact X|]. split; [exact Q|].
          exists j. repeat (split; [assumption|]). exists w. now apply R2.
        * intros k K. destruct (PS k K) as [NP FP]. split; [exact NP|]. rewrite Forall_forall in *. intros q I.
          destruct (FP q I) as (X & Y). split; [now apply R2|exact Y].
      + destruct (inv_next i l m infuse num m1 (q :: new) V NZ FI ltac:(discriminate) R1 R2 R3) as [V2 LV].
        intros E.
        assert (SM : w64 (at_level l i + num) = at_level (l ++ [(infuse, num)]) (S i)).
        { destruct (R3 q (or_introl eq_refl)) as (_ & _ & <-). inversion LV as [|? ? LQ _]; subst. destruct LQ as (_ & <- & _). reflexivity. }
        rewrite SM in E. replace (i + 1)%nat with (S i) in E by lia.
        destruct (IH (S i) (l ++ [(infuse, num)]) m1 (q :: new) m' peaks' V2 ltac:(discriminate)
                     ltac:(intros k [= <-]; split; [discriminate|exact LV]) E) as (i' & l' & LE & REST).
        exists i', l'. split; [lia|exact REST].
  Qed.

  (** walking back from a point *)
  Lemma trace_spec i l m : inv i l m -> forall k q acc rounds,
    (k < i)%nat -> level k l m q -> In q (index nd) -> (k < rounds)%nat ->
    exists ps, trace rounds m q acc = Some (ps ++ acc) /\ incl ps (index nd) /\ joined (b_vdf_output b) ps (v_output q) /\
               spans ps = firstn (S k) l /\ last ps q = q /\ ps <> [].
  Proof.
    intros V. pose proof (intervals_length _ _ _ _ _ _ _ (iv_int _ _ _ V)) as L.
    induction k as [k IHk] using lt_wf_ind. intros q acc rounds K LQ Q R.
    destruct rounds as [|r]; [lia|]. cbn [trace].
    destruct LQ as (I & E & NK). pose proof (iv_in _ _ _ V _ _ I) as S0. destruct S0 as (_ & _ & j & J & NJ & EJ & w & W).
    destruct (lookup_in _ _ _ W) as [w' LW]. rewrite LW. pose proof (lookup_some _ _ _ LW) as W2.
    destruct (map_pos _ _ _ _ _ V W2) as (a & A & P & D).
    destruct (pt_end q Q) as [PE (S1 & S2 & S3 & _ & _)].
    assert (AK : a = k).
    { apply (level_inj i l a k L (iv_pos _ _ _ V) A ltac:(lia)). rewrite <- P.
      pose proof (total_firstn_S l k _ NK) as TS. cbn [snd] in TS. rewrite TS in E. rewrite PE, <- S2, S1 in E. lia. }
    subst a. destruct w' as [x|].
    - destruct D as (X & XI & k' & -> & NX).
      assert (LX : level k' l m x).
      { split; [rewrite <- X; exact W2|]. split; [|exact NX]. destruct (pt_end x XI) as [-> _]. rewrite <- X. exact P. }
      destruct (IHk k' ltac:(lia) x (q :: acc) r ltac:(lia) LX XI ltac:(lia)) as (ps & T & IN & JO & SP & LA & NE).
      exists (ps ++ [q]). split; [rewrite T; now rewrite <- app_assoc|]. split; [|split; [|split; [|split]]].
      + intros z Z. apply in_app_iff in Z as [Z|[<-|[]]]; auto.
      + clear - JO X. rewrite <- X in JO. remember (v_input q) as t eqn:ET. remember (b_vdf_output b) as s eqn:ES. clear ES.
        induction JO as [y|z l y JO IH]; [rewrite ET; constructor; constructor|]. cbn. constructor. now apply IH.
      + unfold spans in *. rewrite map_app, SP. cbn [map]. clear - NK.
        revert NK. generalize (S k') as n. intros n. revert l. induction n as [|n IH]; intros [|y l] E; try discriminate.
        * injection E as ->. reflexivity.
        * cbn [nth_error] in E. cbn [firstn app]. f_equal. exact (IH l E).
      + clear. induction ps as [|y [|z ps] IH]; [reflexivity|reflexivity|exact IH].
      + destruct ps; discriminate.
    - subst k. exists [q]. split; [reflexivity|]. split; [intros z [<-|[]]; exact Q|].
      pose proof (iv_in _ _ _ V _ _ W2) as X. cbn in X. split; [rewrite <- X; constructor; constructor|].
      split; [|split; [reflexivity|discriminate]]. destruct l as [|y l]; [discriminate|]. cbn in NK |- *. injection NK as ->. reflexivity.
  Qed.

  Lemma earliest_in : forall l q, In (earliest q l) (q :: l).
  Proof.
    induction l as [|x l IH]; intros q; cbn [earliest]; [now left|].
    destruct (N.ltb (v_recv x) (v_recv q)).
    - right. apply IH.
    - destruct (IH q) as [E|I]; [left; exact E|right; right; exact I].
  Qed.

  Lemma inv_0 : inv 0 [] [(b_vdf_output b, None)].
  Proof.
    constructor; [reflexivity|constructor|cbn; lia|now left|].
    intros x v [[= <- <-]|[]]. reflexivity.
  Qed.

  Lemma next_spec rounds res : (max_vdf_count < rounds)%nat ->
    find_next_vdf_points infuse_delay commit_delay max_vdf_count block_iters get_header rounds nd b = res ->
    match extend nd b max_vdf_count 0 (b_vdf_iters b) [(b_vdf_output b, None)] [] with
    | None => res = None
    | Some (_, peaks) => exists ps, res = Some ps /\ (peaks <> [] -> ps <> []) /\ (length ps <= max_vdf_count)%nat /\ incl ps (index nd) /\
        (ps <> [] -> joined (b_vdf_output b) ps (match rev ps with q :: _ => v_output q | [] => 0%N end)) /\ intervals b (length ps) = Some (spans ps)
    end.
  Proof.
    intros RN. unfold find_next_vdf_points.
    destruct (extend nd b max_vdf_count 0 (b_vdf_iters b) _ []) as [[m peaks]|] eqn:E; [|intros <-; reflexivity].
    replace (b_vdf_iters b) with (at_level (@nil (N * N)) 0) in E by (cbn; lia).
    destruct (extend_spec _ _ _ _ _ _ _ inv_0 (fun _ => eq_refl) (fun k K => ltac:(discriminate)) E) as (i & l & LE & V & Z & P).
    pose proof (intervals_length _ _ _ _ _ _ _ (iv_int _ _ _ V)) as L.
    destruct peaks as [|q qs].
    - intros <-. exists []. split; [reflexivity|]. split; [congruence|]. split; [cbn; lia|]. split; [intros z []|]. split; [congruence|reflexivity].
    - destruct i as [|k]; [specialize (Z eq_refl); discriminate|].
      destruct (P k eq_refl) as [_ FP]. rewrite Forall_forall in FP. pose proof (FP _ (earliest_in qs q)) as LQ.
      assert (IQ : In (earliest q qs) (index nd)).
      { destruct LQ as (I & _). pose proof (iv_in _ _ _ V _ _ I) as S0. cbn in S0. tauto. }
      destruct (trace_spec _ _ _ V k (earliest q qs) [] rounds ltac:(lia) LQ IQ ltac:(lia)) as (ps & T & IN & JO & SP & LA & NE).
      rewrite app_nil_r in T. intros <-. exists ps. split; [exact T|]. split; [auto|].
      assert (LP : length ps = S k).
      { rewrite <- (map_length (fun q => (v_prev q, v_num_iters q)) ps). fold (spans ps). rewrite SP, firstn_length. lia. }
      split; [lia|]. split; [exact IN|]. split.
      + intros _. assert (RV : match rev ps with q0 :: _ => v_output q0 | [] => 0%N end = v_output (earliest q qs)).
        { destruct (rev ps) as [|z r] eqn:RE.
          - apply (f_equal (@rev _)) in RE. rewrite rev_involutive in RE. cbn in RE. congruence.
          - assert (PE : ps = rev r ++ [z]) by (rewrite <- (rev_involutive ps), RE; reflexivity).
            rewrite PE, last_last in LA. congruence. }
        rewrite RV. exact JO.
      + rewrite LP. rewrite (iv_int _ _ _ V), SP. f_equal. symmetry. apply firstn_all2. lia.
  Qed.

  (** such points are found again *)
  Lemma nodup_find out infuse num q : In q (index nd) -> v_output q = out -> v_prev q = infuse -> v_num_iters q = num ->
    find (fun q => N.eqb (v_output q) out && N.eqb (v_prev q) infuse && N.eqb (v_num_iters q) num) (with_output out (tree nd)) = Some q.
  Proof.
    destruct HD as (T & D & _). intros I A B C. destruct (find _ _) as [r|] eqn:F.
    - apply find_some in F as [J E]. rewrite !andb_true_iff in E. destruct E as ((E1 & _) & _). apply N.eqb_eq in E1.
      unfold with_output in J. apply filter_In in J as [J _]. rewrite T in J. f_equal. apply (nodup_eq (index nd)); auto. congruence.
    - assert (J : In q (with_output out (tree nd))) by (unfold with_output; apply filter_In; rewrite T; split; [exact I|now apply N.eqb_eq]).
      pose proof (find_none _ _ F q J) as Z. cbn in Z. rewrite A, B, C, !N.eqb_refl in Z. discriminate.
  Qed.
  Lemma joined_snoc : forall ps q x y, joined x (ps ++ [q]) y -> joined x ps (v_input q) /\ y = v_output q.
  Proof.
    induction ps as [|z ps IH]; intros q x y J; cbn in J; inversion J as [|z' l' y' J2]; subst.
    - inversion J2; subst. split; [constructor|reflexivity].
    - destruct (IH _ _ _ J2) as [J3 E]. split; [now constructor|exact E].
  Qed.
  Lemma points_again : forall n ps acc out, length ps = n -> incl ps (index nd) -> joined (b_vdf_output b) ps out -> intervals b n = Some (spans ps) ->
    points_back infuse_delay commit_delay block_iters get_header nd b n out acc = Some (b_vdf_output b, ps ++ acc).
  Proof.
    induction n as [|n IH]; intros ps acc out L IN J I.
    - destruct ps; [|discriminate]. inversion J; subst. reflexivity.
    - destruct (@exists_last _ ps ltac:(intros ->; discriminate)) as (front & q & ->).
      rewrite app_length in L. cbn in L. destruct (joined_snoc _ _ _ _ J) as [J2 ->].
      cbn [VdfProofs.intervals] in I. destruct (intervals b n) as [m|] eqn:IM; [|discriminate].
      destruct (find_infusion b n) as [[infuse num]|] eqn:FI; [|discriminate]. injection I as I.
      unfold spans in I. rewrite map_app in I. cbn in I. apply app_inj_tail in I as [I1 I2]. injection I2 as I2 I3.
      cbn [points_back]. rewrite FI, (nodup_find (v_output q) infuse num q); auto; [|apply IN, in_or_app; right; now left].
      rewrite (IH front (q :: acc) (v_input q)); [now rewrite <- app_assoc|lia|intros z Z; apply IN, in_or_app; now left|exact J2|].
      unfold spans. congruence.
  Qed.
  Lemma intervals_sum : forall n l, intervals b n = Some l -> sum_iters infuse_delay commit_delay block_iters get_header b n = Some (total l).
  Proof.
    induction n as [|n IH]; intros l; cbn; [intros [= <-]; reflexivity|].
    destruct (intervals b n) as [m|]; [|discriminate]. destruct (find_infusion b n) as [[h i]|]; [|discriminate]. intros [= <-].
    rewrite (IH _ eq_refl), total_app. cbn. f_equal. lia.
  Qed.
  Lemma fold_total ps : forall s, fold_left N.add (map v_num_iters ps) s = (s + total (spans ps))%N.
  Proof.
    induction ps as [|q ps IH]; intros s; cbn [map fold_left spans total fold_right]; [lia|]. rewrite IH. unfold total, spans. cbn. lia.
  Qed.

  Lemma made_block_ok rounds ps hash td nb : (max_vdf_count < rounds)%nat -> get_header (b_hash b) = Some b ->
    find_next_vdf_points infuse_delay commit_delay max_vdf_count block_iters get_header rounds nd b = Some ps ->
    make_block hash td b ps = Some nb ->
    find_vdf_points infuse_delay commit_delay block_iters get_header nd nb = ps /\ ps <> [] /\
    check_block infuse_delay commit_delay max_vdf_count block_iters get_header b nb = true.
  Proof.
    intros RN GB F MB. pose proof (next_spec rounds _ RN F) as S0.
    destruct (extend nd b max_vdf_count 0 (b_vdf_iters b) _ []) as [[m peaks]|]; [|discriminate].
    destruct S0 as (ps' & [= <-] & _ & LM & IN & JO & IV).
    unfold make_block in MB. destruct (rev ps) as [|q r] eqn:RE; [discriminate|]. injection MB as <-.
    assert (NE : ps <> []) by (intros ->; discriminate).
    specialize (JO NE). split; [|split; [exact NE|]].
    - unfold find_vdf_points, find_prev. cbn [b_prev b_vdf_count b_vdf_output]. rewrite GB.
      rewrite (points_again (length ps) ps [] (v_output q) eq_refl IN JO IV). rewrite N.eqb_refl. apply app_nil_r.
    - unfold check_block. cbn [b_height b_vdf_count b_vdf_height b_vdf_iters].
      rewrite (intervals_sum _ _ IV). rewrite fold_total. cbn [N.add].
      rewrite !andb_true_iff. repeat split.
      + apply orb_true_iff. right. apply Nat.leb_le. destruct ps; [congruence|cbn; lia].
      + apply Nat.leb_le. exact LM.
      + apply Nat.eqb_refl.
      + replace (0 + total (spans ps))%N with (total (spans ps)) by lia. apply N.eqb_refl.
  Qed.

  (** with a point for the next interval there is something to build on *)
  Lemma next_found rounds q infuse num : (max_vdf_count < rounds)%nat -> (0 < max_vdf_count)%nat -> find_infusion b 0 = Some (infuse, num) ->
    In q (index nd) -> v_input q = b_vdf_output b -> v_prev q = infuse -> v_num_iters q = num ->
    intervals b max_vdf_count <> None ->
    exists ps, find_next_vdf_points infuse_delay commit_delay max_vdf_count block_iters get_header rounds nd b = Some ps /\ ps <> [].
  Proof.
    intros RN MX FI Q E1 E2 E3 IV.
    destruct (extend nd b max_vdf_count 0 (b_vdf_iters b) [(b_vdf_output b, None)] []) as [[m peaks]|] eqn:EX.
    - pose proof (next_spec rounds _ RN eq_refl) as S0. rewrite EX in S0. destruct S0 as (ps & F & NE & _). exists ps.
      split; [exact F|]. apply NE. intros ->. clear F NE.
      destruct max_vdf_count as [|n]; [lia|]. cbn [VdfModel.extend] in EX. rewrite FI in EX.
      change (fold_left _ (with_iters (w64 (b_vdf_iters b + num)) (index nd)) (?m, []))
        with (round infuse num (with_iters (w64 (b_vdf_iters b + num)) (index nd)) (m, [])) in EX.
      assert (NZ : num <> 0%N) by (destruct (pt_end q Q) as [_ (_ & _ & _ & _ & NZ)]; congruence).
      assert (L0 : at_level (@nil (N * N)) 0 = b_vdf_iters b) by (cbn; lia).
      pose proof (round_spec 0 [] [(b_vdf_output b, None)] infuse num inv_0 NZ FI (with_iters (w64 (b_vdf_iters b + num)) (index nd))) as R.
      specialize (R (fun q I => ltac:(unfold with_iters in I; apply filter_In in I as [I E]; apply N.eqb_eq in E; rewrite L0; exact (conj I E)))).
      specialize (R [(b_vdf_output b, None)] [] (fun x v I => or_introl I) (fun z Y => Y) (fun q I => match I with end)).
      destruct (round infuse num (with_iters (w64 (b_vdf_iters b + num)) (index nd)) ([(b_vdf_output b, None)], [])) as [m1 new] eqn:RR.
      destruct (R m1 new eq_refl) as (R1 & R2 & R3 & _ & R5).
      assert (IQ : In q new).
      { apply R5.
        - unfold with_iters. apply filter_In. split; [exact Q|]. apply N.eqb_eq. destruct (pt_end q Q) as [_ (S1 & S2 & _)].
          unfold v_end. rewrite S1, E1, BP, E3. reflexivity.
        - split; [exact Q|]. split; [exact E2|]. split; [exact E3|]. exists None. rewrite E1. now left. }
      destruct new as [|q' new]; [destruct IQ|].
      assert (G : forall n i it mm pk m2, pk <> [] -> extend nd b n i it mm pk = Some (m2, []) -> False).
      { induction n0 as [|n0 IH]; intros i it mm pk m2 NP; cbn [VdfModel.extend]; [intros [= _ ->]; congruence|].
        destruct (find_infusion b i) as [[inf nu]|]; [|discriminate].
        destruct (fold_left _ _ (mm, [])) as [m3 [|x nw]]; [intros [= _ ->]; congruence|]. apply IH. discriminate. }
      refine (G n _ _ m1 (q' :: new) m _ EX). discriminate.
    - exfalso. clear FI. assert (G : forall n i it mm pk, extend nd b n i it mm pk = None -> (i + n <= max_vdf_count)%nat -> False).
      { induction n as [|n IH]; intros i it mm pk; cbn [VdfModel.extend]; [discriminate|].
        destruct (find_infusion b i) as [[inf nu]|] eqn:FI.
        - destruct (fold_left _ _ (mm, [])) as [m3 [|x nw]]; [discriminate|]. intros E L. apply (IH _ _ _ _ E). lia.
        - intros _ L. assert (Z : forall k, (i < k)%nat -> intervals b k = None).
          { induction k as [|k IHk]; intros LK; [lia|]. cbn. destruct (Nat.eq_dec i k) as [<-|N0].
            - rewrite FI. now destruct (intervals b i).
            - rewrite IHk by lia. reflexivity. }
          apply IV, Z. lia. }
      apply (G _ _ _ _ _ EX). lia.
  Qed.
End NEXT.
