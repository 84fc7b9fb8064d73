(** Proofs about the timelord. *)
Require Import List Arith NArith Bool Lia Sorted.
Import ListNotations.
From Verif Require Import VdfModel VdfSpec VdfProofs TimelordModel TimelordSpec.
Open Scope N_scope.

(** ** maps *)
Section MAPS.
  Context {V : Type}.
  Definition lt_key (a b : N * V) : Prop := fst a < fst b.
  Definition srt (m : map_ V) : Prop := StronglySorted lt_key m.

  Lemma get_In (m : map_ V) k v : srt m -> (get k m = Some v <-> In (k, v) m).
  Proof.
    induction m as [|[a w] m IH]; intros S; cbn; [split; [discriminate|intros []]|].
    inversion S as [|x y A B]; subst. rewrite Forall_forall in B. destruct (N.eqb_spec a k) as [->|N0].
    - split; [intros [= ->]; now left|]. intros [[= ->]|I]; [reflexivity|]. specialize (B _ I). unfold lt_key in B. cbn in B. lia.
    - rewrite (IH A). split; [now right|]. intros [[= E _]|I]; [congruence|exact I].
  Qed.
  Lemma get_put_same (m : map_ V) k v : get k (put k v m) = Some v.
  Proof.
    induction m as [|[a w] m IH]; cbn; [now rewrite N.eqb_refl|].
    destruct (N.eqb_spec a k) as [->|N0]; [cbn; now rewrite N.eqb_refl|].
    destruct (k <? a); [cbn; now rewrite N.eqb_refl|]. cbn. destruct (N.eqb_spec a k); [congruence|exact IH].
  Qed.
  Lemma get_put_other (m : map_ V) k j v : j <> k -> get j (put k v m) = get j m.
  Proof.
    intros N1. induction m as [|[a w] m IH]; cbn; [destruct (N.eqb_spec k j); [congruence|reflexivity]|].
    destruct (N.eqb_spec a k) as [->|N0]; [cbn; destruct (N.eqb_spec k j); [congruence|reflexivity]|].
    destruct (k <? a); cbn; [destruct (N.eqb_spec k j); [congruence|reflexivity]|]. destruct (a =? j); [reflexivity|exact IH].
  Qed.
  Lemma put_keys (m : map_ V) k v e : In e (put k v m) -> e = (k, v) \/ In e m.
  Proof.
    induction m as [|[a w] m IH]; cbn; [intros [<-|[]]; now left|].
    destruct (a =? k); [intros [<-|I]; [now left|right; now right]|].
    destruct (k <? a); [intros [<-|I]; [now left|right; exact I]|].
    intros [<-|I]; [right; now left|]. destruct (IH I) as [->|J]; [now left|right; now right].
  Qed.
  Lemma put_sorted (m : map_ V) k v : srt m -> srt (put k v m).
  Proof.
    induction m as [|[a w] m IH]; intros S; cbn; [constructor; constructor|].
    inversion S as [|x y A B]; subst. destruct (N.eqb_spec a k) as [->|N0]; [constructor; [exact A|exact B]|].
    destruct (N.ltb_spec k a) as [L|L].
    - constructor; [exact S|]. constructor; [exact L|]. rewrite Forall_forall in *. intros e I. specialize (B e I). unfold lt_key in *. cbn in *. lia.
    - constructor; [now apply IH|]. rewrite Forall_forall in *. intros e I. destruct (put_keys _ _ _ _ I) as [->|J]; [unfold lt_key; cbn; lia|now apply B].
  Qed.
  Lemma put_In (m : map_ V) k v j w : srt m -> In (j, w) (put k v m) -> (j = k /\ w = v) \/ (j <> k /\ In (j, w) m).
  Proof.
    intros S I. apply (get_In _ _ _ (put_sorted _ k v S)) in I. destruct (N.eq_dec j k) as [->|N0].
    - rewrite get_put_same in I. injection I as <-. now left.
    - rewrite get_put_other in I by exact N0. right. split; [exact N0|]. now apply get_In.
  Qed.
  Lemma put_last (m : map_ V) k v : (forall e, In e m -> fst e < k) -> put k v m = m ++ [(k, v)].
  Proof.
    induction m as [|[a w] m IH]; intros L; cbn; [reflexivity|]. pose proof (L (a, w) (or_introl eq_refl)) as A. cbn in A.
    destruct (N.eqb_spec a k); [lia|]. destruct (N.ltb_spec k a); [lia|]. f_equal. apply IH. intros e I. apply L. now right.
  Qed.
  Lemma filter_sorted (f : N * V -> bool) (m : map_ V) : srt m -> srt (filter f m).
  Proof.
    induction 1 as [|a m S IH F]; cbn; [constructor|]. destruct (f a); [|exact IH]. constructor; [exact IH|].
    rewrite Forall_forall in *. intros e I. apply filter_In in I as [I _]. auto.
  Qed.
  Lemma skipn_sorted (m : map_ V) : forall n, srt m -> srt (skipn n m).
  Proof. induction m as [|a m IH]; intros [|n] S; cbn; try assumption. inversion S; subst. now apply IH. Qed.
  Lemma skipn_In {A} (m : list A) : forall n e, In e (skipn n m) -> In e m.
  Proof. induction m as [|a m IH]; intros [|n] e I; cbn in *; auto. right. eauto. Qed.
  Lemma sorted_tail (a : N * V) m : srt (a :: m) -> srt m.
  Proof. now inversion 1. Qed.
  Lemma filter_id {A} (f : A -> bool) m : (forall e, In e m -> f e = true) -> filter f m = m.
  Proof.
    induction m as [|a m IH]; intros F; cbn; [reflexivity|]. rewrite (F a (or_introl eq_refl)). f_equal. apply IH. intros e I. apply F. now right.
  Qed.
  Lemma filter_nil {A} (f : A -> bool) m : (forall e, In e m -> f e = false) -> filter f m = [].
  Proof.
    induction m as [|a m IH]; intros F; cbn; [reflexivity|]. rewrite (F a (or_introl eq_refl)). apply IH. intros e I. apply F. now right.
  Qed.
  (** the large keys are at the end *)
  Lemma trim_keeps (m : map_ V) n k v : srt m -> In (k, v) m -> (length (filter (fun e => (k <=? fst e)%N) m) <= n)%nat -> In (k, v) (trim n m).
  Proof.
    unfold trim. intros S I. revert S I. induction m as [|[a w] m IH]; intros S I L; [destruct I|].
    destruct (Nat.le_gt_cases (length ((a, w) :: m)) n) as [Q|Q].
    - replace (length ((a, w) :: m) - n)%nat with 0%nat by lia. exact I.
    - replace (length ((a, w) :: m) - n)%nat with (Datatypes.S (length m - n))%nat by (cbn [length] in *; lia). cbn [skipn].
      inversion S as [|x y A B]; subst. rewrite Forall_forall in B. destruct I as [[= -> ->]|I].
      + exfalso. cbn [filter fst] in L. replace (k <=? k) with true in L by (symmetry; apply N.leb_refl). cbn [length] in L, Q.
        rewrite filter_id in L; [lia|]. intros e J. specialize (B e J). unfold lt_key in B. cbn in B. apply N.leb_le. lia.
      + apply IH; [exact A|exact I|]. cbn [filter fst] in L. destruct (k <=? a); cbn [length] in L; lia.
  Qed.
  Lemma trim_In (m : map_ V) n e : In e (trim n m) -> In e m.
  Proof. apply skipn_In. Qed.
End MAPS.

Section TL.
  Variable H : N -> N.
  Variable H2 : N -> N -> N.
  Variables (segment_iters : N) (max_history : nat) (reward : N).
  Hypothesis SEG : 0 < segment_iters.
  Hypothesis MH : (0 < max_history)%nat.
  Notation compute := (compute H).
  Notation with_infusion := (with_infusion H2 reward).
  Notation handle := handle.
  Notation update := (update segment_iters max_history reward).
  Notation loop := (loop H H2 segment_iters reward).
  Notation step := (step H H2 segment_iters max_history reward).
  Notation run := (run H H2 segment_iters max_history reward).
  Notation calm := (calm H H2 segment_iters max_history reward).

  (** one entry of the history after another; [inf]: the infusions now; [from]: what was ever requested *)
  Definition ok (inf : map_ N) (from : N -> Prop) (k : N) (u : option N) : Prop :=
    (forall v, get k inf = Some v -> u = Some v) /\ (forall v, u = Some v -> from k).
  Definition linked (inf : map_ N) (from : N -> Prop) (a b : N * N) : Prop :=
    fst b = fst a + segment_iters /\ exists u, snd b = compute (with_infusion (snd a) u) segment_iters /\ ok inf from (fst a) u.
  Fixpoint chain (inf : map_ N) (from : N -> Prop) (l : list (N * N)) : Prop :=
    match l with
    | a :: r => match r with b :: _ => linked inf from a b /\ chain inf from r | [] => True end
    | [] => True
    end.

  Lemma chain_tail inf from a l : chain inf from (a :: l) -> chain inf from l.
  Proof. destruct l; [constructor|]. now intros [_ C]. Qed.
  Lemma chain_skipn inf from : forall n l, chain inf from l -> chain inf from (skipn n l).
  Proof. induction n as [|n IH]; intros [|a l] C; try exact C. cbn. apply IH. now apply chain_tail in C. Qed.
  Lemma chain_sorted inf from l : chain inf from l -> srt l.
  Proof.
    assert (G : forall l a, chain inf from (a :: l) -> Forall (fun e => fst a < fst e) l /\ srt (a :: l)).
    { clear l. induction l as [|b l IH]; intros a C; [split; [constructor|constructor; constructor]|].
      destruct C as [[E _] C]. destruct (IH b C) as [F S].
      assert (F2 : Forall (fun e => fst a < fst e) (b :: l)).
      { constructor; [lia|]. rewrite Forall_forall in *. intros e I. specialize (F e I). lia. }
      split; [exact F2|]. constructor; [exact S|exact F2]. }
    destruct l as [|a l]; [constructor|]. intros C. apply (G l a C).
  Qed.
  Lemma chain_app_l inf from : forall l r, chain inf from (l ++ r) -> chain inf from l.
  Proof.
    induction l as [|a l IH]; intros r C; [constructor|]. destruct l as [|b l]; [constructor|].
    cbn [app chain] in *. destruct C as [L C]. split; [exact L|]. apply (IH r). exact C.
  Qed.
  Lemma chain_ext inf from inf2 (from2 : N -> Prop) l p : chain inf from (l ++ [p]) -> (forall k, from k -> from2 k) ->
    (forall e, In e l -> get (fst e) inf2 = get (fst e) inf \/ get (fst e) inf2 = None) -> chain inf2 from2 (l ++ [p]).
  Proof.
    intros C F E. induction l as [|a l IH]; [constructor|].
    assert (LK : forall b, linked inf from a b -> linked inf2 from2 a b).
    { intros b (A & u & B & O1 & O2). split; [exact A|]. exists u. split; [exact B|]. split; [|intros v Z; apply F, (O2 v Z)].
      intros v G. destruct (E a (or_introl eq_refl)) as [Q|Q]; rewrite Q in G; [auto|discriminate]. }
    destruct l as [|b l].
    - cbn in *. destruct C as [L _]. auto.
    - cbn [app chain] in *. destruct C as [L C]. split; [auto|]. apply IH; [exact C|]. intros e I. apply E. now right.
  Qed.
  Lemma chain_snoc inf from : forall l a b, chain inf from (l ++ [a]) -> linked inf from a b -> chain inf from ((l ++ [a]) ++ [b]).
  Proof.
    induction l as [|c l IH]; intros a b C L; [cbn; auto|]. destruct l as [|d l].
    - cbn in *. destruct C as [LK _]. auto.
    - cbn [app chain] in *. destruct C as [LK C]. split; [exact LK|]. apply (IH a b C L).
  Qed.

  (** ** the state *)
  Definition asked (rs : list request) (k : N) : Prop := exists r, In r rs /\ r_start r = k.

  Record inv (rs : list request) (s : state) : Prop := {
    i_inf : forall k v, In (k, v) (t_infuse s) -> asked rs k;
    i_infs : srt (t_infuse s);
    i_pend : forall e r, In (e, r) (t_pending s) -> e = r_end r /\ In r rs /\ get (r_start r) (t_infuse s) = Some (r_infuse r);
    i_pends : srt (t_pending s);
    i_run : t_run s = true -> t_peak s <> None;
    i_stop : t_run s = false -> t_history s = [] /\ t_peak s = None /\ t_peak_iters s = 0;
    i_reset : t_reset s = true -> t_peak_iters s = 0;
    i_live : t_run s = true -> t_reset s = false ->
      exists h x n, t_peak s = Some (x, n) /\ t_history s = h ++ [(n, x)] /\ t_peak_iters s <= n /\
        chain (t_infuse s) (asked rs) (t_history s ++ [(snd (t_point s), fst (t_point s))]) }.

  Lemma inv_init : inv [] init.
  Proof.
    constructor; cbn; try (intros; contradiction); try discriminate; try constructor; auto; constructor.
  Qed.

  Lemma live_keys rs s h x n : t_history s = h ++ [(n, x)] -> chain (t_infuse s) (asked rs) (t_history s ++ [(snd (t_point s), fst (t_point s))]) ->
    forall e, In e (t_history s) -> fst e <= n.
  Proof.
    intros E C e I. apply chain_app_l in C. apply chain_sorted in C. rewrite E in *. clear - C I. revert C I.
    induction h as [|a h IH]; cbn; intros C [<-|I]; [cbn; lia|destruct I| |].
    - inversion C as [|? ? A B]; subst. rewrite Forall_forall in B. assert (J : In (n, x) (h ++ [(n, x)])) by (apply in_or_app; right; now left). specialize (B (n, x) J).
      unfold lt_key in B. cbn in B. lia.
    - inversion C; subst. auto.
  Qed.

  (** *** a request *)
  Section HANDLE.
    Variables (rs : list request) (s : state) (r : request).
    Hypothesis I : inv rs s.
    Hypothesis C : consistent (r :: rs).

    Lemma pair_r q : In q rs -> (r_start r = r_start q /\ r_end r = r_end q) \/ r_end r <= r_start q \/ r_end q <= r_start r.
    Proof. intros Q. apply C; [now left|now right]. Qed.
    Lemma own_r : r_start r < r_end r.
    Proof. apply C. now left. Qed.
    Lemma own_q q : In q rs -> r_start q < r_end q.
    Proof. intros Q. apply C. now right. Qed.

    Lemma erase_infuse : erase_between (r_start r) (r_end r) (t_infuse s) = t_infuse s.
    Proof.
      apply filter_id. intros [k v] K. apply negb_true_iff, andb_false_iff. cbn.
      destruct (i_inf _ _ I k v K) as (q & Q & <-). pose proof (own_q q Q). destruct (pair_r q Q) as [[A B]|[A|A]].
      - left. apply N.ltb_ge. lia.
      - right. apply N.ltb_ge. lia.
      - left. apply N.ltb_ge. lia.
    Qed.
    Lemma erase_pending : erase_between (r_start r) (r_end r) (t_pending s) = t_pending s.
    Proof.
      apply filter_id. intros [k q] K. apply negb_true_iff, andb_false_iff. cbn.
      destruct (i_pend _ _ I k q K) as (-> & Q & _). pose proof (own_q q Q). destruct (pair_r q Q) as [[A B]|[A|A]].
      - right. apply N.ltb_ge. lia.
      - right. apply N.ltb_ge. lia.
      - left. apply N.ltb_ge. lia.
    Qed.

    Definition infuse2 := put (r_start r) (r_infuse r) (t_infuse s).
    Lemma infuse2_asked k v : In (k, v) infuse2 -> asked (r :: rs) k.
    Proof.
      intros K. destruct (put_keys _ _ _ _ K) as [[= -> ->]|J]; [exists r; split; [now left|reflexivity]|].
      destruct (i_inf _ _ I k v J) as (q & Q & E). exists q. split; [now right|exact E].
    Qed.
    (** what may be pending afterwards *)
    Lemma pending2 p : (p = put (r_end r) r (t_pending s) \/ (p = t_pending s /\ get (r_start r) (t_infuse s) = Some (r_infuse r))) ->
      srt p /\ forall e q, In (e, q) p -> e = r_end q /\ In q (r :: rs) /\ get (r_start q) infuse2 = Some (r_infuse q).
    Proof.
      intros [->|[-> G]].
      - split; [apply put_sorted, (i_pends _ _ I)|]. intros e q J. destruct (put_In _ _ _ _ _ (i_pends _ _ I) J) as [[-> ->]|[N0 K]].
        + split; [reflexivity|]. split; [now left|]. apply get_put_same.
        + destruct (i_pend _ _ I e q K) as (E & Q & G). split; [exact E|]. split; [now right|].
          unfold infuse2. rewrite get_put_other; [exact G|]. intros Z. pose proof own_r. pose proof (own_q q Q).
          destruct (pair_r q Q) as [[A B]|[A|A]]; [congruence|lia|lia].
      - split; [apply (i_pends _ _ I)|]. intros e q J. destruct (i_pend _ _ I e q J) as (E & Q & K). split; [exact E|]. split; [now right|].
        unfold infuse2. destruct (N.eq_dec (r_start q) (r_start r)) as [Z|Z].
        + rewrite Z, get_put_same. rewrite Z in K. congruence.
        + rewrite get_put_other by exact Z. exact K.
    Qed.

    Lemma handle_inv : inv (r :: rs) (handle r s).
    Proof.
      unfold TimelordModel.handle. rewrite erase_infuse, erase_pending. fold infuse2.
      set (passed := match t_peak s with Some (_, n) => r_start r <=? n | None => false end).
      set (is_fork := match get (r_start r) (t_infuse s) with Some v => passed && negb (r_infuse r =? v) | None => passed end).
      (* the first part *)
      assert (P1 : exists history peak reset,
        (if is_fork then match get (r_start r) (t_history s) with
                         | Some x => (t_history s, Some (x, r_start r), true)
                         | None => (put (r_start r) 0 (t_history s), Some (0, r_start r), true) end
         else (t_history s, t_peak s, t_reset s)) = (history, peak, reset) /\
        ((reset = true /\ peak <> None /\ is_fork = true) \/ (history = t_history s /\ peak = t_peak s /\ reset = t_reset s /\ is_fork = false))).
      { destruct is_fork; [|eexists _, _, _; split; [reflexivity|right; auto]].
        destruct (get (r_start r) (t_history s)); eexists _, _, _; (split; [reflexivity|left; split; [reflexivity|split; [discriminate|reflexivity]]]). }
      destruct P1 as (history & peak & reset & -> & D1).
      (* the second part *)
      set (part2 := match r_input r with
        | None => (t_run s, peak, reset)
        | Some x => if t_run s then match peak with
              | None => (true, Some (x, r_start r), true)
              | Some (_, pn) =>
                if (match get (r_start r) history with Some y => negb (y =? x) | None => true end && (negb reset || (pn <? r_start r))) || (pn <? r_start r)
                then (true, Some (x, r_start r), true) else (true, peak, reset)
              end
            else (true, Some (x, r_start r), true)
        end).
      assert (P2 : exists running peak2 reset2, part2 = (running, peak2, reset2) /\
        ((reset2 = true /\ peak2 <> None /\ running = true) \/ (running = t_run s /\ peak2 = peak /\ reset2 = reset))).
      { unfold part2. destruct (r_input r) as [x|]; [|eexists _, _, _; split; [reflexivity|right; auto]].
        destruct (t_run s) eqn:R; [|eexists _, _, _; split; [reflexivity|left; split; [reflexivity|split; [discriminate|reflexivity]]]].
        destruct peak as [[px pn]|]; [|eexists _, _, _; split; [reflexivity|left; split; [reflexivity|split; [discriminate|reflexivity]]]].
        destruct (_ || _); eexists _, _, _; (split; [reflexivity|]).
        - left. split; [reflexivity|split; [discriminate|reflexivity]].
        - right. auto. }
      destruct P2 as (running & peak2 & reset2 & E2 & D2).
      match goal with |- context [match ?t with pair y _ => _ end] => change t with part2 end. rewrite E2. clear E2 part2.
      (* a fork without a running VDF does not happen *)
      assert (NF : t_run s = false -> is_fork = false).
      { intros R. destruct (i_stop _ _ I R) as (_ & PN & _). unfold is_fork, passed. rewrite PN. destruct (get _ _); reflexivity. }
      assert (PI : reset2 = false -> t_run s = true -> exists x n, t_peak s = Some (x, n) /\ t_peak_iters s <= n).
      { intros R2 RU. destruct D2 as [(Q & _)|(_ & _ & Q)]; [congruence|]. destruct D1 as [(Z & _)|(_ & _ & Z & _)]; [congruence|].
        destruct (i_live _ _ I RU) as (h & x & n & A & _ & B & _); [congruence|]. exists x, n. auto. }
      assert (SAME : reset2 = false -> is_fork = false).
      { intros R2. destruct D2 as [(Q & _)|(_ & _ & Q)]; [congruence|]. destruct D1 as [(Z & _)|(_ & _ & Z & F)]; [congruence|exact F]. }
      set (pi := if reset2 then 0 else t_peak_iters s).
      assert (PEND : (if pi <? r_end r then put (r_end r) r (t_pending s) else t_pending s) = put (r_end r) r (t_pending s) \/
                     ((if pi <? r_end r then put (r_end r) r (t_pending s) else t_pending s) = t_pending s /\ get (r_start r) (t_infuse s) = Some (r_infuse r))).
      { destruct (N.ltb_spec pi (r_end r)) as [L|L]; [now left|]. right. split; [reflexivity|]. unfold pi in L. pose proof own_r as OR.
        destruct reset2; [lia|]. destruct (t_run s) eqn:RU; [|destruct (i_stop _ _ I RU) as (_ & _ & Z); lia].
        destruct (PI eq_refl eq_refl) as (x & n & PK & LE). specialize (SAME eq_refl). unfold is_fork, passed in SAME. rewrite PK in SAME.
        replace (r_start r <=? n) with true in SAME by (symmetry; apply N.leb_le; lia).
        destruct (get (r_start r) (t_infuse s)) as [v|]; [|discriminate]. cbn in SAME. apply negb_false_iff, N.eqb_eq in SAME. congruence. }
      destruct (pending2 _ PEND) as [PS PP].
      constructor; cbn [t_run t_reset t_history t_infuse t_peak_iters t_pending t_peak t_point t_tasks].
      - exact infuse2_asked.
      - apply put_sorted, (i_infs _ _ I).
      - exact PP.
      - exact PS.
      - intros RU. destruct D2 as [(_ & Q & _)|(Q & -> & _)]; [exact Q|].
        destruct D1 as [(_ & Z & _)|(_ & -> & _)]; [exact Z|]. apply (i_run _ _ I). congruence.
      - intros RU. destruct D2 as [(_ & _ & Q)|(Q & -> & ->)]; [congruence|]. rewrite RU in Q. symmetry in Q.
        specialize (NF Q). destruct D1 as [(_ & _ & Z)|(-> & -> & Z & _)]; [congruence|].
        destruct (i_stop _ _ I Q) as (A & B & D). repeat split; auto. unfold pi. destruct reset; [reflexivity|exact D].
      - intros ->. reflexivity.
      - intros RU R2. pose proof (SAME R2) as F0. destruct D2 as [(Q & _)|(Q & -> & ->)]; [congruence|].
        destruct D1 as [(Z & _)|(-> & -> & -> & _)]; [congruence|]. rewrite RU in Q. symmetry in Q.
        destruct (i_live _ _ I Q R2) as (h & x & n & PK & HI & LE & CH). exists h, x, n. split; [exact PK|]. split; [exact HI|].
        unfold pi. rewrite R2. split; [exact LE|].
        apply (chain_ext (t_infuse s) (asked rs)); [exact CH| |].
        + intros k (q & A & B). exists q. split; [now right|exact B].
        + intros e J. left. unfold infuse2. pose proof (live_keys rs s h x n HI CH e J) as LK.
          destruct (N.eq_dec (fst e) (r_start r)) as [Z|Z]; [|now rewrite get_put_other].
          rewrite Z, get_put_same. unfold is_fork, passed in F0. rewrite PK in F0.
          replace (r_start r <=? n) with true in F0 by (symmetry; apply N.leb_le; lia).
          destruct (get (r_start r) (t_infuse s)) as [v|]; [|discriminate]. cbn in F0. apply negb_false_iff, N.eqb_eq in F0. congruence.
    Qed.
  End HANDLE.

  (** *** the other events *)
  Lemma loop_inv rs s : inv rs s -> inv rs (loop s).
  Proof.
    intros I. unfold TimelordModel.loop. destruct (t_run s) eqn:RU; cbn [negb]; [|exact I].
    pose proof (i_run _ _ I RU) as PN.
    assert (AS : forall k v, get k (t_infuse s) = Some v -> asked rs k).
    { intros k v G. apply (get_In _ _ _ (i_infs _ _ I)) in G. apply (i_inf _ _ I k v G). }
    destruct (t_reset s) eqn:RE.
    - destruct (t_peak s) as [[x n]|] eqn:PK; [|congruence]. cbn [fst snd].
      constructor; cbn [t_run t_reset t_history t_infuse t_peak_iters t_pending t_peak t_point t_tasks].
      + apply (i_inf _ _ I). + apply (i_infs _ _ I). + apply (i_pend _ _ I). + apply (i_pends _ _ I). + discriminate. + discriminate. + discriminate.
      + intros _ _. exists [], x, n. split; [reflexivity|]. split; [reflexivity|]. rewrite (i_reset _ _ I RE). split; [lia|].
        cbn. split; [|constructor]. split; [reflexivity|]. exists (get n (t_infuse s)). split; [reflexivity|].
        split; [auto|]. intros v E. apply (AS n v). exact E.
    - destruct (i_live _ _ I RU RE) as (h & x & n & PK & HI & LE & CH).
      destruct (t_point s) as [px pn] eqn:PT. cbn [fst snd] in *.
      assert (LT : forall e, In e (t_history s) -> fst e < pn).
      { intros e J. pose proof CH as CH2. apply chain_sorted in CH2. clear - CH2 J. induction (t_history s) as [|a l IH]; [destruct J|].
        cbn in CH2. inversion CH2 as [|? ? A B]; subst. destruct J as [<-|J]; [|auto].
        rewrite Forall_forall in B. apply (B (pn, px)). apply in_or_app. right. now left. }
      rewrite put_last by exact LT.
      constructor; cbn [t_run t_reset t_history t_infuse t_peak_iters t_pending t_peak t_point t_tasks].
      + apply (i_inf _ _ I). + apply (i_infs _ _ I). + apply (i_pend _ _ I). + apply (i_pends _ _ I). + discriminate. + discriminate. + discriminate.
      + intros _ _. exists (t_history s), px, pn. split; [reflexivity|]. split; [reflexivity|]. split.
        * assert (In (n, x) (t_history s)) as J by (rewrite HI; apply in_or_app; right; now left). specialize (LT _ J). cbn in LT. lia.
        * cbn [fst snd]. apply chain_snoc; [exact CH|]. split; [reflexivity|]. cbn [fst snd].
          exists (get pn (t_infuse s)). split; [reflexivity|]. split; [auto|]. intros v E. apply (AS pn v). exact E.
  Qed.
  Lemma timer_inv rs s : inv rs s -> inv rs (timer s).
  Proof.
    intros I. constructor; cbn; try apply I.
    - intros R. destruct (i_stop _ _ I R) as (A & B & _). auto.
    - reflexivity.
    - intros R E. destruct (i_live _ _ I R E) as (h & x & n & A & B & _ & D). exists h, x, n. repeat split; auto. lia.
  Qed.
  Lemma stop_inv rs s : inv rs s -> t_pending s = [] -> inv rs (stop_vdf s).
  Proof.
    intros I E. constructor; cbn [stop_vdf t_run t_reset t_history t_infuse t_peak_iters t_pending t_peak t_point t_tasks].
    - intros k v [].
    - constructor.
    - intros e r. rewrite E. intros [].
    - apply I.
    - discriminate.
    - auto.
    - reflexivity.
    - discriminate.
  Qed.

  (** *** the proofs *)
  Definition good (rs : list request) (p : proof) : Prop :=
    exists r, In r rs /\ p_start p = r_start r /\ p_start p + p_num_iters p = r_end r /\ p_prev p = r_infuse r /\ p_segment_size p = segment_iters /\
      p_segments p <> [] /\ N.of_nat (length (p_segments p)) * segment_iters = p_num_iters p /\
      Checkpoints H segment_iters (infused H2 (p_input p) (p_prev p) (p_reward p)) (p_segments p).

  Lemma segs_from inf from e : forall l k x u, chain inf from ((k, x) :: l) -> In e (map fst l) ->
    (forall z l', l = z :: l' -> snd z = compute (with_infusion x u) segment_iters) ->
    (forall j, k < j -> j < e -> ~ from j) ->
    let segs := map snd (filter (fun z => (k <? fst z) && (fst z <=? e)) l) in
    segs <> [] /\ N.of_nat (length segs) * segment_iters = e - k /\ Checkpoints H segment_iters (with_infusion x u) segs.
  Proof.
    induction l as [|[k2 z] l IH]; intros k x u C E FST NF; [destruct E|].
    pose proof (chain_sorted _ _ _ C) as S. destruct C as [[K _] C]. cbn in K. specialize (FST _ _ eq_refl). cbn in FST.
    inversion S as [|? ? S2 F]; subst. inversion S2 as [|? ? S3 F3]; subst. rewrite Forall_forall in F, F3.
    cbn [filter fst]. replace (k <? k + segment_iters) with true by (symmetry; apply N.ltb_lt; lia). cbn [andb].
    destruct E as [E|E].
    - cbn in E. subst e. replace (k + segment_iters <=? k + segment_iters) with true by (symmetry; apply N.leb_refl).
      rewrite filter_nil.
      + cbn [map snd length]. split; [discriminate|]. split; [lia|]. constructor; [|constructor]. unfold TimelordModel.compute. apply iterate_hashes.
      + intros y J. specialize (F3 y J). unfold lt_key in F3. cbn in F3. apply andb_false_iff. right. apply N.leb_gt. lia.
    - assert (LE : k + segment_iters < e).
      { apply in_map_iff in E as (y & <- & J). specialize (F3 y J). exact F3. }
      replace (k + segment_iters <=? e) with true by (symmetry; apply N.leb_le; lia).
      specialize (IH (k + segment_iters) (compute (with_infusion x u) segment_iters) None C E).
      assert (FL : filter (fun y : N * N => (k <? fst y) && (fst y <=? e)) l = filter (fun y => (k + segment_iters <? fst y) && (fst y <=? e)) l).
      { apply filter_ext_in. intros y J. f_equal. specialize (F3 y J). unfold lt_key in F3. cbn in F3.
        transitivity true; [|symmetry]; apply N.ltb_lt; lia. }
      rewrite FL. destruct IH as (NE & LN & CP).
      + intros y l' ->. destruct C as [[_ (u2 & E2 & _ & O2)] _]. cbn [fst snd] in *. destruct u2 as [v|]; [|exact E2].
        exfalso. apply (NF (k + segment_iters)); [lia|exact LE|]. apply (O2 v eq_refl).
      + intros j J1 J2. apply NF; lia.
      + cbn [map snd]. split; [discriminate|]. split; [cbn [length]; lia|]. constructor; [unfold TimelordModel.compute; apply iterate_hashes|exact CP].
  Qed.

  Lemma proof_good rs s r x : inv rs s -> consistent rs -> t_run s = true -> t_reset s = false ->
    In (r_end r, r) (t_pending s) -> get (r_start r) (t_history s) = Some x -> get (r_end r) (t_history s) <> None ->
    good rs (make_proof segment_iters reward r x (t_history s)).
  Proof.
    intros I C RU RE P GS GE. destruct (i_pend _ _ I _ _ P) as (_ & R & G).
    destruct (i_live _ _ I RU RE) as (h & px & n & PK & HI & LE & CH). apply chain_app_l in CH.
    pose proof (chain_sorted _ _ _ CH) as S. apply (get_In _ _ _ S) in GS.
    destruct (get (r_end r) (t_history s)) as [y|] eqn:GY; [|congruence]. apply (get_In _ _ _ S) in GY.
    assert (LT : r_start r < r_end r) by now apply C.
    apply in_split in GS as (l1 & l2 & E). rewrite E in *.
    assert (S1 : forall z, In z l1 -> fst z < r_start r).
    { intros z Z. clear - S Z. induction l1 as [|a l1 IH]; [destruct Z|]. cbn in S. inversion S as [|? ? A B]; subst. destruct Z as [<-|Z]; [|auto].
      rewrite Forall_forall in B. apply (B (r_start r, x)). apply in_or_app. right. now left. }
    assert (C2 : chain (t_infuse s) (asked rs) ((r_start r, x) :: l2)).
    { clear - CH. induction l1 as [|a l1 IH]; [exact CH|]. apply IH. now apply chain_tail in CH. }
    assert (E2 : In (r_end r) (map fst l2)).
    { apply in_app_iff in GY as [Z|[Z|Z]]; [specialize (S1 _ Z); cbn in S1; lia|injection Z as Z _; lia|]. now apply (in_map fst) in Z. }
    destruct (segs_from (t_infuse s) (asked rs) (r_end r) l2 (r_start r) x (Some (r_infuse r)) C2 E2) as (NE & LN & CP).
    - intros z l' ->. destruct C2 as [[_ (u & EU & O1 & _)] _]. cbn [fst snd] in *. rewrite (O1 _ G) in EU. exact EU.
    - intros j J1 J2 (q & Q & <-). destruct C as [OW PA]. pose proof (OW q Q). destruct (PA r q R Q) as [[A B]|[A|A]]; lia.
    - assert (SG : p_segments (make_proof segment_iters reward r x (l1 ++ (r_start r, x) :: l2)) =
                   map snd (filter (fun z : N * N => (r_start r <? fst z) && (fst z <=? r_end r)) l2)).
      { unfold make_proof. cbn [p_segments]. rewrite filter_app, filter_nil.
        - cbn [app filter fst]. replace (r_start r <? r_start r) with false by (symmetry; apply N.ltb_irrefl). reflexivity.
        - intros z Z. specialize (S1 z Z). apply andb_false_iff. left. apply N.ltb_ge. lia. }
      exists r. split; [exact R|]. split; [reflexivity|]. split; [cbn; lia|]. split; [reflexivity|]. split; [reflexivity|].
      rewrite SG. split; [exact NE|]. split; [exact LN|]. exact CP.
  Qed.

  (** what update serves *)
  Lemma serve_spec rs s : inv rs s -> consistent rs -> t_run s = true -> t_reset s = false ->
    forall pend pi out pend' pi' out', incl pend (t_pending s) -> srt pend ->
      (exists x n, t_peak s = Some (x, n) /\ pi <= n) -> Forall (good rs) out ->
      serve segment_iters reward (t_history s) pend pi out = (pend', pi', out') ->
      incl pend' pend /\ srt pend' /\ (exists x n, t_peak s = Some (x, n) /\ pi' <= n) /\ Forall (good rs) out'.
  Proof.
    intros I C RU RE. induction pend as [|[e r] pend IH]; intros pi out pend' pi' out' IN SO PI G; cbn [serve].
    - intros [= <- <- <-]. split; [intros z []|]. split; [constructor|]. auto.
    - destruct (get (r_end r) (t_history s)) as [y|] eqn:GE; [|intros [= <- <- <-]; split; [intros z Z; exact Z|]; auto].
      assert (IN2 : incl pend (t_pending s)) by (intros z Z; apply IN; now right).
      assert (SO2 : srt pend) by now apply sorted_tail in SO.
      destruct (get (r_start r) (t_history s)) as [x|] eqn:GS.
      + intros E. destruct (IH (r_end r) (out ++ [make_proof segment_iters reward r x (t_history s)]) pend' pi' out' IN2 SO2) as (A & B & D); try exact E.
        * destruct (i_live _ _ I RU RE) as (h & px & n & PK & HI & LE & CH). exists px, n. split; [exact PK|].
          assert (S := chain_sorted _ _ _ (chain_app_l _ _ _ _ CH)). apply (get_In _ _ _ S) in GE.
          apply (live_keys rs s h px n HI CH _ GE).
        * apply Forall_app. split; [exact G|]. constructor; [|constructor].
          assert (J := IN _ (or_introl eq_refl)). destruct (i_pend _ _ I _ _ J) as (EE & _). subst e.
          apply (proof_good rs s r x I C RU RE J GS). congruence.
        * split; [intros z Z; right; now apply A|]. auto.
      + intros E. destruct (IH _ _ _ _ _ IN2 SO2 PI G E) as (A & B). split; [intros z Z; right; now apply A|exact B].
  Qed.

  Lemma serve_empty : forall pend pi, serve segment_iters reward [] pend pi [] = (pend, pi, []).
  Proof. destruct pend as [|[e r] pend]; reflexivity. Qed.

  Lemma update_inv rs s s' out : inv rs s -> consistent rs -> t_reset s = false -> kept s -> update s = (s', out) ->
    inv rs s' /\ Forall (good rs) out.
  Proof.
    intros I C RE KE. unfold TimelordModel.update.
    set (pend := match t_history s with [] => t_pending s | (b, _) :: _ => filter (fun e => negb (fst e <? b)) (t_pending s) end).
    assert (PI : incl pend (t_pending s)).
    { unfold pend. destruct (t_history s) as [|[b y] l]; [intros z Z; exact Z|]. intros z Z. now apply filter_In in Z. }
    assert (PS : srt pend).
    { unfold pend. destruct (t_history s) as [|[b y] l]; [apply I|]. apply filter_sorted, I. }
    destruct (serve segment_iters reward (t_history s) pend (t_peak_iters s) []) as [[pend' pi'] out'] eqn:SV. intros [= <- <-].
    assert (TI : forall e r, In (e, r) (t_pending s) -> get (r_start r) (trim 1000 (t_infuse s)) = Some (r_infuse r)).
    { intros e r J. destruct (i_pend _ _ I e r J) as (_ & _ & G). apply (get_In _ _ _ (i_infs _ _ I)) in G.
      apply get_In; [apply skipn_sorted, I|]. apply trim_keeps; [apply I|exact G|]. apply (KE e r J). }
    assert (TG : forall k, get k (trim 1000 (t_infuse s)) = get k (t_infuse s) \/ get k (trim 1000 (t_infuse s)) = None).
    { intros k. destruct (get k (trim 1000 (t_infuse s))) as [v|] eqn:G; [|now right]. left. symmetry.
      apply get_In; [apply I|]. apply (get_In _ _ _ (skipn_sorted _ _ (i_infs _ _ I))) in G. now apply trim_In in G. }
    destruct (t_run s) eqn:RU.
    - destruct (i_live _ _ I RU RE) as (h & px & n & PK & HI & LE & CH).
      destruct (serve_spec rs s I C RU RE pend _ [] _ _ _ PI PS (ex_intro _ px (ex_intro _ n (conj PK LE))) (Forall_nil _) SV)
        as (A & B & (px' & n' & PK' & LE') & G).
      split; [|exact G]. constructor; cbn [t_run t_reset t_history t_infuse t_peak_iters t_pending t_peak t_point t_tasks].
      + intros k v J. apply trim_In in J. apply (i_inf _ _ I k v J).
      + apply skipn_sorted, I.
      + intros e r J. apply A, PI in J. destruct (i_pend _ _ I e r J) as (E & Q & _). split; [exact E|]. split; [exact Q|]. apply (TI e r J).
      + exact B.
      + intros _. congruence.
      + congruence.
      + congruence.
      + intros _ _. assert (L : (length (t_history s) - max_history <= length h)%nat) by (rewrite HI, app_length; cbn; lia).
        exists (skipn (length (t_history s) - max_history) h), px, n. split; [exact PK|].
        split.
        { unfold trim. rewrite HI at 2. rewrite skipn_app. f_equal. rewrite HI. rewrite app_length. cbn [length].
          rewrite HI, app_length in L. cbn [length] in L. replace (length h + 1 - max_history - length h)%nat with 0%nat by lia. reflexivity. }
        rewrite PK in PK'. injection PK' as <- <-. split; [exact LE'|].
        apply (chain_ext (t_infuse s) (asked rs)).
        * unfold trim. pose proof (chain_skipn _ _ (length (t_history s) - max_history) _ CH) as CS.
          rewrite skipn_app in CS. replace (length (t_history s) - max_history - length (t_history s))%nat with 0%nat in CS by lia. exact CS.
        * auto.
        * intros e _. apply TG.
    - destruct (i_stop _ _ I RU) as (HE & PN & PZ). rewrite HE in SV. rewrite serve_empty in SV. injection SV as <- <- <-.
      split; [|constructor]. constructor; cbn [t_run t_reset t_history t_infuse t_peak_iters t_pending t_peak t_point t_tasks].
      + intros k v J. apply trim_In in J. apply (i_inf _ _ I k v J).
      + apply skipn_sorted, I.
      + intros e r J. apply PI in J. destruct (i_pend _ _ I e r J) as (E & Q & _). split; [exact E|]. split; [exact Q|]. apply (TI e r J).
      + exact PS.
      + discriminate.
      + intros _. rewrite HE, PN, PZ. auto.
      + congruence.
      + discriminate.
  Qed.

  (** *** whole runs *)
  Lemma consistent_incl a b : incl a b -> consistent b -> consistent a.
  Proof. intros L [A B]. split; intros; auto. Qed.
  Lemma good_incl a b p : incl a b -> good a p -> good b p.
  Proof. intros L (r & R & G). exists r. split; [now apply L|exact G]. Qed.

  Lemma step_inv rs s e s' out : inv rs s -> consistent (requests [e] ++ rs) -> calm s [e] -> step s e = (s', out) ->
    inv (requests [e] ++ rs) s' /\ Forall (good (requests [e] ++ rs)) out.
  Proof.
    intros I C [CA _] E. destruct e as [r| | | |]; cbn [requests flat_map app] in *; cbn [TimelordModel.step] in E.
    - injection E as <- <-. split; [now apply handle_inv|constructor].
    - injection E as <- <-. split; [now apply stop_inv|constructor].
    - destruct (t_tasks s =? 0)%nat eqn:Z; [injection E as <- <-; split; [exact I|constructor]|].
      apply Nat.eqb_neq in Z. destruct CA as [RE KE]; [lia|]. now apply (update_inv rs s).
    - injection E as <- <-. split; [now apply timer_inv|constructor].
    - injection E as <- <-. split; [now apply loop_inv|constructor].
  Qed.

  Lemma run_good : forall l rs s, inv rs s -> consistent (requests l ++ rs) -> calm s l ->
    forall s' out, run s l = (s', out) -> Forall (good (requests l ++ rs)) out.
  Proof.
    induction l as [|e l IH]; intros rs s I C CA s' out; cbn [TimelordModel.run].
    - intros [= <- <-]. constructor.
    - destruct (step s e) as [s1 o1] eqn:S1. destruct (run s1 l) as [s2 o2] eqn:R2. intros [= <- <-].
      destruct CA as [CA1 CA2]. rewrite S1 in CA2. cbn [fst] in CA2.
      assert (RQ : requests (e :: l) = requests [e] ++ requests l) by (cbn; now rewrite app_nil_r).
      assert (IN : incl (requests [e] ++ rs) (requests (e :: l) ++ rs)).
      { rewrite RQ. intros z Z. apply in_app_iff in Z as [Z|Z]; apply in_or_app; [left; apply in_or_app; now left|now right]. }
      destruct (step_inv rs s e s1 o1 I (consistent_incl _ _ IN C) (conj CA1 Logic.I) S1) as [I2 G1].
      assert (IN2 : incl (requests l ++ requests [e] ++ rs) (requests (e :: l) ++ rs)).
      { rewrite RQ. intros z Z. rewrite !in_app_iff in *. tauto. }
      specialize (IH _ s1 I2 (consistent_incl _ _ IN2 C) CA2 _ _ R2).
      apply Forall_app. split; eapply Forall_impl; try eassumption; intros p; apply good_incl; assumption.
  Qed.

  (** *** a request that is served *)
  Section PROGRESS.
    Variables (r : request) (x : N) (k : nat).
    Hypothesis IX : r_input r = Some x.
    Hypothesis LEN : r_end r = r_start r + N.of_nat k * segment_iters.
    Hypothesis KP : (0 < k)%nat.

    Record pinv (j : nat) (s : state) : Prop := {
      q_run : t_run s = true; q_reset : t_reset s = false;
      q_hist : exists t, t_history s = (r_start r, x) :: t;
      q_keys : forall i, (i <= j)%nat -> In (r_start r + N.of_nat i * segment_iters) (map fst (t_history s));
      q_max : forall e, In e (t_history s) -> fst e <= r_start r + N.of_nat j * segment_iters;
      q_point : snd (t_point s) = r_start r + N.of_nat (S j) * segment_iters;
      q_inf : t_infuse s = [(r_start r, r_infuse r)];
      q_pend : t_pending s = [(r_end r, r)];
      q_tasks : (k <= j)%nat -> (0 < t_tasks s)%nat }.

    Lemma lt_r : r_start r < r_end r.
    Proof. rewrite LEN. nia. Qed.
    Lemma handled : handle r init = mk_state true true [] [(r_start r, r_infuse r)] 0 [(r_end r, r)] (Some (x, r_start r)) (0, 0) 0.
    Proof.
      pose proof lt_r. unfold TimelordModel.handle, init. cbn. rewrite IX. replace (0 <? r_end r) with true by (symmetry; apply N.ltb_lt; lia).
      destruct (N.leb_spec (r_end r) (r_start r)); [lia|]. reflexivity.
    Qed.
    Lemma first_round : pinv 0 (loop (handle r init)).
    Proof.
      rewrite handled. unfold TimelordModel.loop. cbn. constructor; cbn; auto.
      - eauto.
      - intros i L. left. assert (i = 0)%nat by lia. subst. lia.
      - intros e [<-|[]]. cbn. lia.
      - destruct segment_iters; lia.
      - intros L. lia.
    Qed.
    Lemma next_round j s : pinv j s -> pinv (S j) (loop s).
    Proof.
      intros [RU RE [t HI] KS MX PT IN PE TA]. unfold TimelordModel.loop. rewrite RU, RE. cbn [negb].
      assert (MX2 : forall e, In e (t_history s) -> fst e < snd (t_point s)) by (intros e J; specialize (MX e J); rewrite PT; lia).
      rewrite (put_last (t_history s) (snd (t_point s)) (fst (t_point s)) MX2).
      constructor; cbn [t_run t_reset t_history t_infuse t_peak_iters t_pending t_peak t_point t_tasks]; auto.
      - rewrite HI. eexists. reflexivity.
      - intros i L. rewrite map_app. apply in_or_app. destruct (Nat.eq_dec i (S j)) as [->|N0]; [right; left; exact PT|left; apply KS; lia].
      - intros e J. apply in_app_iff in J as [J|[<-|[]]]; [specialize (MX e J); lia|]. cbn [fst]. rewrite PT. lia.
      - cbn [snd]. rewrite PT. lia.
      - intros L. rewrite PE. cbn [get]. destruct (Nat.eq_dec k (S j)) as [E|E].
        + replace (r_end r =? snd (t_point s)) with true; [lia|]. symmetry. apply N.eqb_eq. rewrite PT, LEN, E. reflexivity.
        + specialize (TA ltac:(lia)). destruct (r_end r =? snd (t_point s)); lia.
    Qed.
    Lemma rounds : forall j, exists s, fst (run init (Req r :: repeat Loop (S j))) = s /\ snd (run init (Req r :: repeat Loop (S j))) = [] /\ pinv j s.
    Proof.
      assert (G : forall j s i, pinv i s -> exists s', run s (repeat Loop j) = (s', []) /\ pinv (i + j) s').
      { induction j as [|j IH]; intros s i P; cbn [repeat TimelordModel.run TimelordModel.step].
        - exists s. rewrite Nat.add_0_r. auto.
        - destruct (IH _ _ (next_round _ _ P)) as (s' & E & P2). rewrite E. exists s'. split; [reflexivity|].
          replace (i + S j)%nat with (S i + j)%nat by lia. exact P2. }
      intros j. cbn [repeat TimelordModel.run TimelordModel.step]. destruct (G j _ 0%nat first_round) as (s' & E & P). rewrite E. exists s'. auto.
    Qed.
    Lemma run_app s l m : run s (l ++ m) = let '(s1, o1) := run s l in let '(s2, o2) := run s1 m in (s2, o1 ++ o2).
    Proof.
      revert s. induction l as [|e l IH]; intros s; cbn [app TimelordModel.run].
      - destruct (run s m); reflexivity.
      - destruct (step s e) as [s1 o1]. rewrite IH. destruct (run s1 l) as [s2 o2]. destruct (run s2 m) as [s3 o3]. now rewrite app_assoc.
    Qed.

    Lemma served : exists s p, run init (Req r :: repeat Loop (S k) ++ [Update]) = (s, [p]) /\ p_input p = x /\ good [r] p.
    Proof.
      destruct (rounds k) as (s & E1 & E2 & P). destruct (run init (Req r :: repeat Loop (S k))) as [s0 o0] eqn:R0. cbn in E1, E2. subst s0 o0.
      assert (C1 : consistent [r]).
      { pose proof lt_r. split; [intros q [<-|[]]; assumption|]. intros a b [<-|[]] [<-|[]]. auto. }
      (* the state satisfies the invariant *)
      assert (I : inv [r] s).
      { assert (GI : forall j s s' o, inv [r] s -> run s (repeat Loop j) = (s', o) -> inv [r] s').
        { clear - SEG MH. induction j as [|j IH]; intros s s' o I E; cbn [repeat TimelordModel.run TimelordModel.step] in E; [injection E as <- <-; exact I|].
          destruct (run (loop s) (repeat Loop j)) as [s2 o2] eqn:R2. injection E as <- <-. apply (IH _ _ _ (loop_inv _ _ I) R2). }
        change (Req r :: repeat Loop (S k)) with ([Req r] ++ repeat Loop (S k)) in R0. rewrite run_app in R0. cbn [TimelordModel.run TimelordModel.step] in R0.
        destruct (run (handle r init) (repeat Loop (S k))) as [s2 o2] eqn:R2. injection R0 as <- _.
        apply (GI _ _ _ _ (handle_inv [] init r inv_init C1) R2). }
      assert (UP : exists s' p, update s = (s', [p]) /\ p_input p = x).
      { destruct P as [RU RE [t HI] KS MX PT IN PE TA].
        specialize (KS k (Nat.le_refl _)). rewrite <- LEN in KS. apply in_map_iff in KS as ([e y] & EE & J). cbn in EE. subst e.
        destruct (i_live _ _ I RU RE) as (h & px & n & _ & _ & _ & CH). pose proof (chain_sorted _ _ _ (chain_app_l _ _ _ _ CH)) as SH.
        pose proof (proj2 (get_In _ _ _ SH) J) as GE.
        assert (GS : get (r_start r) (t_history s) = Some x) by (rewrite HI; cbn [get]; now rewrite N.eqb_refl).
        unfold TimelordModel.update. rewrite PE.
        match goal with |- context [serve _ _ _ ?q _ _] => assert (QE : q = [(r_end r, r)]) end.
        { rewrite HI. cbn [filter fst]. destruct (N.ltb_spec (r_end r) (r_start r)); [pose proof lt_r; lia|]. reflexivity. }
        rewrite QE. cbn [serve]. rewrite GE, GS. eexists _, _. split; reflexivity. }
      destruct UP as (s' & p & UP & IP). exists s', p.
      change (Req r :: repeat Loop (S k) ++ [Update]) with ((Req r :: repeat Loop (S k)) ++ [Update]). rewrite run_app, R0.
      cbn [TimelordModel.run TimelordModel.step]. pose proof (q_tasks _ _ P (Nat.le_refl _)) as TA. destruct (Nat.eqb_spec (t_tasks s) 0) as [Z|Z]; [lia|].
      rewrite UP. split; [reflexivity|]. split; [exact IP|].
      destruct (update_inv [r] s s' [p] I C1 (q_reset _ _ P)) as [_ G]; [|exact UP|now inversion G].
      intros e q J. rewrite (q_inf _ _ P). cbn [filter length]. destruct (_ <=? _); cbn; lia.
    Qed.
  End PROGRESS.
End TL.

(** *** the thread always has a point to restart from *)
Section PEAK.
  Variable H : N -> N.
  Variable H2 : N -> N -> N.
  Variables (segment_iters : N) (max_history : nat) (reward : N).
  Lemma handle_peak r s : (t_run s = true -> t_peak s <> None) -> t_run (handle r s) = true -> t_peak (handle r s) <> None.
  Proof.
    intros I. unfold handle.
    set (is_fork := match get (r_start r) (erase_between (r_start r) (r_end r) (t_infuse s)) with
                    | Some v => match t_peak s with Some (_, n) => r_start r <=? n | None => false end && negb (r_infuse r =? v)
                    | None => match t_peak s with Some (_, n) => r_start r <=? n | None => false end end).
    destruct is_fork; [destruct (get (r_start r) (t_history s))|]; destruct (r_input r) as [x|]; cbn; auto;
      try (destruct (t_run s); cbn; try discriminate);
      try (destruct (_ || _); cbn; discriminate).
    destruct (t_peak s) as [[px pn]|]; cbn; [|discriminate]. destruct (_ || _); cbn; discriminate.
  Qed.
  Lemma run_peak : forall l s s' o, (t_run s = true -> t_peak s <> None) -> run H H2 segment_iters max_history reward s l = (s', o) ->
    t_run s' = true -> t_peak s' <> None.
  Proof.
    induction l as [|e l IH]; intros s s' o I; cbn [run]; [intros [= <- <-]; exact I|].
    destruct (step H H2 segment_iters max_history reward s e) as [s1 o1] eqn:S1. destruct (run H H2 segment_iters max_history reward s1 l) as [s2 o2] eqn:R2.
    intros [= <- <-]. apply (IH _ _ _) with (2 := R2). destruct e as [r| | | |]; cbn [step] in S1.
    - injection S1 as <- _. now apply handle_peak.
    - injection S1 as <- _. discriminate.
    - destruct (t_tasks s =? 0)%nat; [injection S1 as <- _; exact I|]. unfold update in S1.
      destruct (serve _ _ _ _ _ _) as [[? ?] ?]. injection S1 as <- _. exact I.
    - injection S1 as <- _. exact I.
    - injection S1 as <- _. unfold loop. destruct (t_run s) eqn:RU; cbn; [discriminate|intros Z; congruence].
  Qed.
End PEAK.
