(** C116: the vote on the block reward *)
Require Import List Arith NArith ZArith QArith Bool Lia Lqa Permutation.
From Verif Require Import CtlModel CtlSpec CtlProofs.
Import List ListNotations.
Open Scope Q_scope.

(** ** What the code calls the median is the median. *)
Theorem C116_median : forall l v, median l v -> exists m, get_median l = Some m /\ m == v.
Proof. exact is_median. Qed.
Print Assumptions C116_median.

(** what an update does, all of it *)
Lemma update_eq target decimals s now swap G M0 : quotes s now gold_sources G -> quotes s now mmx_sources M0 ->
  let M := swap_price decimals swap ++ M0 in
  let s' := fst (update_control target decimals s now swap) in
  files s' = files s /\ failed s' = failed s /\
  vote s' = match get_median G with
            | None => if existsb (is_expired s now) gold_sources then vote s else 0%Z
            | Some g => match get_median M with
                        | None => if existsb (is_expired s now) (gold_sources ++ mmx_sources) then vote s else 0%Z
                        | Some m => decide target (g / m)
                        end
            end.
Proof.
  intros QG QM. cbv zeta. unfold update_control.
  destruct (look_fold now gold_sources s [] false []) as (s1 & l1 & ag1 & n1 & E1 & F1 & V1 & FA1 & _ & Q1 & _ & _ & _ & AG1). unfold gold_sources in E1 at 1. rewrite E1. cbn [app].
  rewrite (quotes_fun _ _ _ _ _ QG Q1). clear G QG.
  assert (X1 : ag1 = existsb (is_expired s now) gold_sources).
  { destruct (existsb (is_expired s now) gold_sources) eqn:X.
    - apply AG1. right. apply existsb_exists in X. exact X.
    - destruct ag1; auto. destruct (proj1 AG1 eq_refl) as [|(k & I & Y)]; [discriminate|]. assert (existsb (is_expired s now) gold_sources = true) by (apply existsb_exists; eauto). congruence. }
  destruct (get_median l1) as [g|].
  2: { cbn [fst]. rewrite <- X1. destruct ag1; cbn; auto. }
  destruct (look_fold now mmx_sources s1 (swap_price decimals swap) ag1 n1) as (s2 & l2 & ag2 & n2 & E2 & F2 & V2 & FA2 & _ & Q2 & _ & _ & _ & AG2).
  assert (EE : forall k, is_expired s1 now k = is_expired s now k) by (intros; unfold is_expired; now rewrite F1).
  unfold mmx_sources in E2 at 1. rewrite E2.
  assert (Q2' : quotes s now mmx_sources l2) by (apply (quotes_same s1); auto; intros; now rewrite F1).
  rewrite (quotes_fun _ _ _ _ _ QM Q2'). clear M0 QM.
  assert (X2 : ag2 = existsb (is_expired s now) (gold_sources ++ mmx_sources)).
  { rewrite existsb_app, <- X1. destruct ag1; [apply AG2; now left|]. cbn [orb]. destruct (existsb (is_expired s now) mmx_sources) eqn:X.
    - apply AG2. right. apply existsb_exists in X as (k & I & X). exists k. rewrite EE. auto.
    - destruct ag2; auto. destruct (proj1 AG2 eq_refl) as [|(k & I & Y)]; [discriminate|]. rewrite EE in Y. assert (existsb (is_expired s now) mmx_sources = true) by (apply existsb_exists; eauto). congruence. }
  destruct (get_median (swap_price decimals swap ++ l2)) as [m|]; cbn [fst]; [cbn; rewrite F2, FA2; auto|].
  rewrite <- X2. destruct ag2; cbn; rewrite ?F2, ?FA2, ?V2; auto.
Qed.

Lemma valid_swap_pos decimals swap : forall x, In x (swap_price decimals swap) -> 0 < x.
Proof.
  intros x I. unfold swap_price in I. destruct swap as [[[b0 b1] d]|]; [|destruct I]. destruct (N.eqb_spec b0 0), (N.eqb_spec b1 0); try destruct I as [<-|[]]; try destruct I.
  assert (P : forall n, n <> 0%N -> 0 < inject_Z (Z.of_N n)) by (intros k K; change 0 with (inject_Z 0); rewrite <- Zlt_Qlt; lia).
  assert (T : forall k, (10 ^ k)%N <> 0%N) by (intros; apply N.pow_nonzero; lia).
  assert (D : forall a b, 0 < a -> 0 < b -> 0 < a / b) by (intros; apply Qlt_shift_div_l; lra).
  apply D; apply D; auto.
Qed.
Lemma quotes_pos s now ks l : quotes s now ks l -> forall x, In x l -> 0 < x.
Proof.
  induction 1 as [|k ks p l (t & c & _ & _ & T) Q IH|k ks l CO Q IH]; intros x I; [destruct I| |auto]. destruct I as [<-|I]; auto.
  destruct T as [? ? ? L|b a B A R]; auto. apply Qlt_shift_div_l; lra.
Qed.
Lemma decide_cases target g m : 0 < m ->
  (target * (101 # 100) * m < g -> decide target (g / m) = (-1)%Z) /\
  (g <= target * (101 # 100) * m -> g * (101 # 100) < target * m -> decide target (g / m) = 1%Z) /\
  (g <= target * (101 # 100) * m -> target * m <= g * (101 # 100) -> decide target (g / m) = 0%Z).
Proof.
  intros P. unfold decide.
  assert (A : target * (101 # 100) * m < g -> Qle_bool (g / m) (target * (101 # 100)) = false) by (intros; apply leb_gt, Qlt_shift_div_l; auto).
  assert (B : g <= target * (101 # 100) * m -> Qle_bool (g / m) (target * (101 # 100)) = true) by (intros; apply leb_le, Qle_shift_div_r; auto).
  split; [intros H; now rewrite A|]. split; intros H1 H2; rewrite B by auto; cbn [negb].
  - replace (Qle_bool (target / (101 # 100)) (g / m)) with false; auto. symmetry. apply leb_gt. apply Qlt_shift_div_r; auto.
    setoid_replace (target / (101 # 100) * m) with (target * m / (101 # 100)) by (field; auto). apply Qlt_shift_div_l; [reflexivity|auto].
  - replace (Qle_bool (target / (101 # 100)) (g / m)) with true; auto. symmetry. apply leb_le. apply Qle_shift_div_l; auto.
    setoid_replace (target / (101 # 100) * m) with (target * m / (101 # 100)) by (field; auto). apply Qle_shift_div_r; [reflexivity|auto].
Qed.

(** ** The vote after an update: by the medians of the prices that count.  Down when an ounce of gold costs over 1% more MMX than the target, up when over 1% less. *)
Theorem C116_vote : forall target decimals s now swap G M0 g m,
  quotes s now gold_sources G -> quotes s now mmx_sources M0 -> median G g -> median (swap_price decimals swap ++ M0) m -> 0 < target ->
  let v := vote (fst (update_control target decimals s now swap)) in
  (v = (-1)%Z /\ target * (101 # 100) * m < g) \/
  (v = 1%Z /\ g * (101 # 100) < target * m) \/
  (v = 0%Z /\ target * m <= g * (101 # 100) /\ g <= target * (101 # 100) * m).
Proof.
  intros target decimals s now swap G M0 g m QG QM MG MM T v.
  destruct (is_median _ _ MG) as (g' & EG & GG). destruct (is_median _ _ MM) as (m' & EM & GM).
  destruct (update_eq target decimals s now swap G M0 QG QM) as (_ & _ & V). fold v in V. rewrite EG, EM in V.
  assert (P : 0 < m').
  { apply (median_pos (swap_price decimals swap ++ M0)); auto. intros x I. apply in_app_iff in I as [I|I]; [apply (valid_swap_pos _ _ _ I)|apply (quotes_pos _ _ _ _ QM _ I)]. }
  destruct (decide_cases target g' m' P) as (D1 & D2 & D3). rewrite <- GG, <- GM.
  destruct (Qlt_le_dec (target * (101 # 100) * m') g') as [L|L]; [left; rewrite V; auto|right].
  destruct (Qlt_le_dec (g' * (101 # 100)) (target * m')) as [L'|L']; [left|right]; rewrite V; auto.
Qed.
Print Assumptions C116_vote.

(** ** No minority of sources can turn the vote: it follows the range in which more than half of the prices of each kind are. *)
Theorem C116_majority : forall target decimals s now swap G M0 g1 g2 m1 m2,
  quotes s now gold_sources G -> quotes s now mmx_sources M0 -> majority g1 g2 G -> majority m1 m2 (swap_price decimals swap ++ M0) -> 0 < target -> 0 < m1 ->
  let v := vote (fst (update_control target decimals s now swap)) in
  (target * (101 # 100) * m2 < g1 -> v = (-1)%Z) /\ (g2 * (101 # 100) < target * m1 -> v = 1%Z) /\
  (target * m2 <= g1 * (101 # 100) -> g2 <= target * (101 # 100) * m1 -> v = 0%Z).
Proof.
  intros target decimals s now swap G M0 g1 g2 m1 m2 QG QM MG MM T P1 v.
  destruct (update_eq target decimals s now swap G M0 QG QM) as (_ & _ & V). fold v in V.
  destruct (get_median G) as [g|] eqn:EG; [|destruct G; [unfold majority in MG; cbn in MG; lia|discriminate]].
  destruct (get_median (swap_price decimals swap ++ M0)) as [m|] eqn:EM.
  2: { destruct (swap_price decimals swap ++ M0); [unfold majority in MM; cbn in MM; lia|discriminate]. }
  pose proof (majority_median _ _ _ _ MG EG) as (A1 & A2). pose proof (majority_median _ _ _ _ MM EM) as (B1 & B2).
  destruct (decide_cases target g m ltac:(lra)) as (D1 & D2 & D3).
  assert (TM : target * m1 <= target * m /\ target * m <= target * m2) by (split; rewrite (Qmult_comm target), (Qmult_comm target m) || rewrite (Qmult_comm target m), (Qmult_comm target m2); apply Qmult_le_compat_r; lra).
  assert (TP : 0 < target * m) by (apply Qmult_lt_0_compat; lra).
  rewrite V. split; [|split]; intros.
  - apply D1. lra.
  - apply D2; lra.
  - apply D3; lra.
Qed.
Print Assumptions C116_majority.

(** ** Without prices: the vote is 0 when all files are there and up to date, and else it stays what it was. *)
Theorem C116_none : forall target decimals s now swap M0, quotes s now gold_sources [] -> quotes s now mmx_sources M0 ->
  let v := vote (fst (update_control target decimals s now swap)) in
  ((forall k, In k gold_sources -> exists t c, files s k = Some (t, c) /\ (now <= t + 86400)%Z) -> v = 0%Z) /\
  ((exists k, In k gold_sources /\ forall t c, files s k = Some (t, c) -> (t + 86400 < now)%Z) -> v = vote s).
Proof.
  intros target decimals s now swap M0 QG QM v. destruct (update_eq target decimals s now swap [] M0 QG QM) as (_ & _ & V). fold v in V. cbn [get_median] in V.
  split.
  - intros A. rewrite V. destruct (existsb (is_expired s now) gold_sources) eqn:X; auto. apply existsb_exists in X as (k & I & X).
    assert (is_expired s now k = false) by (apply expired_iff; auto). congruence.
  - intros (k & I & A). rewrite V. replace (existsb (is_expired s now) gold_sources) with true; auto. symmetry. apply existsb_exists. exists k. split; auto.
    destruct (is_expired s now k) eqn:X; auto. apply expired_iff in X as (t & c & F & L). specialize (A t c F). lia.
Qed.
Print Assumptions C116_none.

(** ... the same without a price of MMX *)
Theorem C116_none_mmx : forall target decimals s now swap G g, quotes s now gold_sources G -> median G g -> quotes s now mmx_sources [] -> swap_price decimals swap = [] ->
  let v := vote (fst (update_control target decimals s now swap)) in
  ((forall k, exists t c, files s k = Some (t, c) /\ (now <= t + 86400)%Z) -> v = 0%Z) /\
  ((exists k, forall t c, files s k = Some (t, c) -> (t + 86400 < now)%Z) -> v = vote s).
Proof.
  intros target decimals s now swap G g QG MG QM SW v. destruct (is_median _ _ MG) as (g' & EG & _).
  destruct (update_eq target decimals s now swap G [] QG QM) as (_ & _ & V). fold v in V. rewrite EG, SW in V. cbn [app get_median] in V.
  assert (ALL : forall k, In k (gold_sources ++ mmx_sources)) by (intros []; cbn; tauto).
  split.
  - intros A. rewrite V. destruct (existsb _ _) eqn:X; auto. apply existsb_exists in X as (k & _ & X).
    assert (is_expired s now k = false) by (apply expired_iff; auto). congruence.
  - intros (k & A). rewrite V. replace (existsb (is_expired s now) (gold_sources ++ mmx_sources)) with true; auto. symmetry. apply existsb_exists. exists k. split; auto.
    destruct (is_expired s now k) eqn:X; auto. apply expired_iff in X as (t & c & F & L). specialize (A t c F). lia.
Qed.
Print Assumptions C116_none_mmx.

Lemma update_started target decimals s now swap : let r := update_control target decimals s now swap in
  (forall k, In k (snd r) -> is_expired s now k = true /\ ~ In k (failed s) /\ ~ In k (pending s)) /\ NoDup (snd r) /\
  failed (fst r) = failed s /\ (forall k, In k (pending (fst r)) <-> In k (snd r) \/ In k (pending s)) /\
  (forall k, In k gold_sources -> is_expired s now k = true -> In k (snd r) \/ In k (failed s) \/ In k (pending s)).
Proof.
  cbv zeta. unfold update_control.
  destruct (look_fold now gold_sources s [] false []) as (s1 & l1 & ag1 & n1 & E1 & F1 & V1 & FA1 & P1 & Q1 & N1 & ND1 & C1 & AG1). unfold gold_sources in E1 at 1. rewrite E1. cbn [app].
  destruct (get_median l1) as [g|].
  2: { cbn [fst snd]. split; [intros k I; destruct (N1 k I) as (_ & A); exact A|]. split; [exact ND1|]. split; [destruct ag1; exact FA1|]. split; [|exact C1].
       intros k. assert (X : pending (if ag1 then s1 else set_vote s1 0) = pending s1) by (destruct ag1; reflexivity). rewrite X, P1, in_app_iff, <- in_rev. tauto. }
  destruct (look_fold now mmx_sources s1 (swap_price decimals swap) ag1 n1) as (s2 & l2 & ag2 & n2 & E2 & F2 & V2 & FA2 & P2 & Q2 & N2 & ND2 & C2 & AG2).
  unfold mmx_sources in E2 at 1. rewrite E2.
  assert (EE : forall k, is_expired s1 now k = is_expired s now k) by (intros; unfold is_expired; now rewrite F1).
  assert (X : forall r : state, failed r = failed s2 -> pending r = pending s2 ->
     (forall k, In k (n1 ++ n2) -> is_expired s now k = true /\ ~ In k (failed s) /\ ~ In k (pending s)) /\ NoDup (n1 ++ n2) /\ failed r = failed s /\
     (forall k, In k (pending r) <-> In k (n1 ++ n2) \/ In k (pending s)) /\ (forall k, In k gold_sources -> is_expired s now k = true -> In k (n1 ++ n2) \/ In k (failed s) \/ In k (pending s))).
  { intros r RF RP. split.
    { intros k I. apply in_app_iff in I as [I|I]; [destruct (N1 k I) as (_ & A); exact A|]. destruct (N2 k I) as (_ & A & B & C). rewrite EE in A. rewrite FA1 in B. rewrite P1 in C. split; [exact A|]. split; [exact B|].
      intros Y. apply C, in_or_app. now right. }
    split. { clear - ND1 ND2 N2 P1. induction n1 as [|x n1 IH]; [exact ND2|]. inversion ND1; subst. cbn. constructor.
             - intros I. apply in_app_iff in I as [I|I]; [auto|]. destruct (N2 x I) as (_ & _ & _ & C). apply C. rewrite P1, in_app_iff, <- in_rev. left. now left.
             - assert (forall l1 : list source, NoDup l1 -> (forall y, In y l1 -> ~ In y n2) -> NoDup (l1 ++ n2)) as AP.
               { clear - ND2. induction l1 as [|y l IH]; intros A B; [exact ND2|]. inversion A; subst. cbn. constructor; [|apply IH; auto; intros; apply B; now right]. intros I. apply in_app_iff in I as [I|I]; [auto|]. apply (B y (or_introl eq_refl) I). }
               apply AP; auto. intros y I Y. destruct (N2 y Y) as (_ & _ & _ & C). apply C. rewrite P1, in_app_iff, <- in_rev. left. now right. }
    split; [rewrite RF, FA2; exact FA1|]. split.
    - intros k. rewrite RP, P2, P1, !in_app_iff, <- !in_rev. tauto.
    - intros k I EX. destruct (C1 k I EX) as [A|A]; [left; apply in_or_app; now left|now right]. }
  destruct (get_median (swap_price decimals swap ++ l2)); cbn [fst snd]; apply X; try reflexivity; destruct ag2; reflexivity.
Qed.

(** ** Requests.  A source is asked only when its file is missing or over a day old; it is not asked twice at a time. *)
Theorem C116_once : forall target decimals t1 e1 st1 t2 e2 st2 t3 s k,
  run target decimals (t1 ++ (e1, st1) :: t2 ++ (e2, st2) :: t3) s -> In k st1 -> In k st2 ->
  exists now r x, In (Fetched k now r, x) t2.
Proof.
  intros target decimals t1 e1 st1 t2 e2 st2 t3 s k R I1 I2.
  assert (PRE : forall tr s, run target decimals tr s -> forall t1 e1 st1 t2, tr = t1 ++ (e1, st1) :: t2 -> In k st1 -> In k (pending s) \/ exists now r x, In (Fetched k now r, x) t2).
  { clear. induction 1 as [|tr s e R IH]; intros t1 e1 st1 t2 E I; [destruct t1; discriminate|].
    destruct (@exists_last _ ((e1, st1) :: t2)) as (w & z & W); [congruence|]. rewrite W, app_assoc in E. apply app_inj_tail in E as (E & Z). subst z.
    destruct t2 as [|z t2].
    - destruct w as [|? w]; [|destruct w; discriminate]. injection W as -> ->. left. destruct e as [now swap| |k' now r]; cbn [step snd] in I; [|destruct I..].
      cbn [step fst]. apply (update_started target decimals s now swap). now left.
    - destruct w as [|w0 w]; [discriminate|]. injection W as <- W. destruct (IH t1 e1 st1 w E I) as [P|(now & r & x & F)].
      2: { right. exists now, r, x. rewrite W. apply in_or_app. now left. }
      destruct e as [now swap| |k' now r].
      + left. cbn [step fst]. apply (update_started target decimals s now swap). now right.
      + left. exact P.
      + destruct (source_eqb_spec k' k) as [->|NE]; [right; exists now, r, (snd (step target decimals s (Fetched k now r))); rewrite W; apply in_or_app; right; now left|].
        left. cbn [step fst]. destruct (mem k' (pending s)); [|exact P]. assert (X : In k (CtlModel.remove k' (pending s))) by (apply filter_In; split; auto; destruct (source_eqb_spec k k'); [congruence|reflexivity]).
        destruct r; exact X. }
  assert (CUT : forall a b s, run target decimals (a ++ b) s -> exists s', run target decimals a s').
  { clear. assert (G : forall tr s, run target decimals tr s -> forall a b, tr = a ++ b -> exists s', run target decimals a s').
    { induction 1 as [|tr s e R IH]; intros a b E; [apply eq_sym, app_eq_nil in E as (-> & _); exists start; constructor|].
      destruct b as [|z b]; [rewrite app_nil_r in E; subst a; eexists; now constructor|].
      destruct (@exists_last _ (z :: b)) as (w & y & W); [congruence|]. rewrite W, app_assoc in E. apply app_inj_tail in E as (E & _). eauto. }
    intros a b s R. exact (G _ _ R a b eq_refl). }
  assert (EQ : t1 ++ (e1, st1) :: t2 ++ (e2, st2) :: t3 = (t1 ++ (e1, st1) :: t2 ++ [(e2, st2)]) ++ t3) by (rewrite <- app_assoc; cbn; now rewrite <- app_assoc).
  rewrite EQ in R. destruct (CUT _ _ _ R) as (s' & R'). clear R EQ s.
  inversion R' as [E|tr s0 e R0 E ES].
  - destruct t1; discriminate.
  - assert (tr = t1 ++ (e1, st1) :: t2 /\ (e, snd (step target decimals s0 e)) = (e2, st2)) as (-> & EE).
    { apply app_inj_tail. rewrite E, <- app_assoc. reflexivity. }
    injection EE as -> <-. destruct (PRE _ _ R0 _ _ _ _ eq_refl I1) as [P|X]; auto. exfalso. destruct e2 as [now swap| |k' now r]; cbn [step snd] in I2; [|destruct I2..].
    destruct (update_started target decimals s0 now swap) as (A & _). now apply (A k I2).
Qed.
Print Assumptions C116_once.
(** An update asks for every source of the price of gold that is out of date, unless it is being asked, or failed since the last full hour. *)
Theorem C116_asks : forall target decimals s now swap, let r := update_control target decimals s now swap in
  NoDup (snd r) /\
  (forall k, In k (snd r) -> forall t c, files s k = Some (t, c) -> (t + 86400 < now)%Z) /\
  (forall k, In k gold_sources -> (forall t c, files s k = Some (t, c) -> (t + 86400 < now)%Z) -> In k (snd r) \/ In k (failed s) \/ In k (pending s)).
Proof.
  intros target decimals s now swap r. destruct (update_started target decimals s now swap) as (A & ND & _ & _ & C). split; [exact ND|]. split.
  - intros k I t c F. destruct (A k I) as (E & _). unfold is_expired in E. rewrite F in E. apply Z.ltb_lt in E. lia.
  - intros k I X. apply C; auto. unfold is_expired. destruct (files s k) as [[t c]|]; auto. apply Z.ltb_lt. specialize (X t c eq_refl). lia.
Qed.
Print Assumptions C116_asks.
(** After a failure a source is left alone until the hourly timer. *)
Theorem C116_failed : forall target decimals s now k events, In k (pending s) -> (forall e, In e events -> e <> Hourly) ->
  forall a e b, events = a ++ e :: b -> ~ In k (snd (step target decimals (fold_left (fun s e => fst (step target decimals s e)) a (fst (step target decimals s (Fetched k now None)))) e)).
Proof.
  intros target decimals s now k events P NH a e b E.
  set (s1 := fst (step target decimals s (Fetched k now None))).
  assert (I1 : In k (failed s1) /\ ~ In k (pending s1)).
  { unfold s1. cbn [step fst]. apply mem_iff in P. rewrite P. cbn. split; [now left|]. unfold CtlModel.remove. rewrite filter_In. destruct (source_eqb_spec k k); [cbn; intros (_ & X); discriminate|congruence]. }
  assert (NA : forall x, In x a -> x <> Hourly) by (intros x I; apply NH; rewrite E; apply in_or_app; now left).
  clearbody s1. clear E NH P. revert s1 I1. induction a as [|x a IH]; intros s1 (F & NP).
  - cbn [fold_left]. destruct e as [n sw| |k' n r]; cbn [step snd]; [|intros []..]. intros I. destruct (update_started target decimals s1 n sw) as (A & _). destruct (A k I) as (_ & X & _); auto.
  - cbn [fold_left]. apply IH; [intros y I; apply NA; now right|]. destruct x as [n sw| |k' n r].
    + cbn [step fst]. destruct (update_started target decimals s1 n sw) as (A & _ & B & C & _). rewrite B. split; auto. rewrite C. intros [I|I]; [destruct (A k I) as (_ & X & _); auto|auto].
    + exfalso. now apply (NA Hourly (or_introl eq_refl)).
    + cbn [step fst]. destruct (mem k' (pending s1)) eqn:MP; [|auto]. apply mem_iff in MP. assert (NE : k <> k') by congruence.
      assert (FR : In k (CtlModel.remove k' (failed s1))) by (apply filter_In; split; auto; destruct (source_eqb_spec k k'); [congruence|reflexivity]).
      assert (PR : ~ In k (CtlModel.remove k' (pending s1))) by (unfold CtlModel.remove; rewrite filter_In; intros (X & _); auto).
      destruct r; cbn; auto.
Qed.
Print Assumptions C116_failed.

(** ** The vote is always one that other nodes accept in a block (Node_validate.cpp:170). *)
Theorem C116_range : forall target decimals tr s, run target decimals tr s -> (-1 <= vote s <= 1)%Z.
Proof.
  intros target decimals tr s. induction 1 as [|tr s e R IH]; [cbn; lia|]. destruct e as [now swap| |k now r]; cbn [step fst].
  - destruct (look_fold now gold_sources s [] false []) as (? & G & ? & ? & _ & _ & _ & _ & _ & QG & _).
    destruct (look_fold now mmx_sources s [] false []) as (? & M0 & ? & ? & _ & _ & _ & _ & _ & QM & _).
    destruct (update_eq target decimals s now swap G M0 QG QM) as (_ & _ & ->).
    destruct (get_median G); [|destruct (existsb _ _); lia]. destruct (get_median _); [|destruct (existsb _ _); lia].
    unfold decide. destruct (negb _); [lia|]. destruct (negb _); lia.
  - exact IH.
  - destruct (mem k (pending s)); [|exact IH]. destruct r; exact IH.
Qed.
Print Assumptions C116_range.

(** ** The swap: one price, dollars for one MMX by its two balances; none when one side is empty. *)
Theorem C116_swap : forall decimals b0 b1 usd, let ten := fun n => inject_Z (Z.of_N (10 ^ n)) in let amount := fun n => inject_Z (Z.of_N n) in
  ((b0 = 0 \/ b1 = 0)%N -> swap_price decimals (Some (b0, b1, usd)) = []) /\
  ((b0 <> 0 /\ b1 <> 0)%N -> exists p, swap_price decimals (Some (b0, b1, usd)) = [p] /\ p * (amount b0 / ten decimals) == amount b1 / ten usd).
Proof.
  intros decimals b0 b1 usd ten amount. unfold swap_price. split.
  - intros [->| ->]; [reflexivity|]. now rewrite Bool.orb_true_r.
  - intros (A & B). apply N.eqb_neq in A as A', B as B'. rewrite A', B'. cbn [orb]. eexists. split; [reflexivity|]. fold (ten decimals) (ten usd). fold (amount b0) (amount b1).
    assert (P : forall n, n <> 0%N -> ~ amount n == 0) by (intros n H E; apply H; apply (inject_Z_injective (Z.of_N n) 0) in E; destruct n; [reflexivity|discriminate]).
    assert (T : forall n, ~ ten n == 0) by (intros n; unfold ten; apply (P (10 ^ n)%N), N.pow_nonzero; discriminate).
    field. auto.
Qed.
Print Assumptions C116_swap.
(** ** An answer counts at once and for a day, and the source can be asked again; after a full hour failures are forgotten. *)
Theorem C116_fetched : forall target decimals s k now c, In k (pending s) ->
  let s' := fst (step target decimals s (Fetched k now (Some c))) in
  (forall p t, tells k c p -> (t <= now + 86400)%Z -> counts s' t k p) /\ ~ In k (pending s') /\ (forall x, x <> k -> files s' x = files s x) /\ vote s' = vote s.
Proof.
  intros target decimals s k now c P s'. apply mem_iff in P. unfold s'. cbn [step fst]. rewrite P. cbn [files pending vote].
  split; [|split; [|split; auto]].
  - intros p t T L. exists now, c. cbn [files]. destruct (source_eqb_spec k k); [|congruence]. auto.
  - unfold CtlModel.remove. rewrite filter_In. destruct (source_eqb_spec k k); [cbn; intros (_ & X); discriminate|congruence].
  - intros x NE. destruct (source_eqb_spec x k); [congruence|reflexivity].
Qed.
Print Assumptions C116_fetched.
Theorem C116_hourly : forall target decimals s now swap k, In k gold_sources -> (forall t c, files s k = Some (t, c) -> (t + 86400 < now)%Z) ->
  In k (snd (update_control target decimals (fst (step target decimals s Hourly)) now swap)) \/ In k (pending s).
Proof.
  intros target decimals s now swap k I X. destruct (C116_asks target decimals (fst (step target decimals s Hourly)) now swap) as (_ & _ & A).
  destruct (A k I X) as [B|[B|B]]; auto. destruct B.
Qed.
Print Assumptions C116_hourly.

(** ** The vote does not expire: while no source of the price of gold can be reached, it stays what it was, for any time. *)
Definition cut_off (s : state) (e : event) : Prop :=
  match e with
  | Update now _ => forall k t c, In k gold_sources -> files s k = Some (t, c) -> (t + 86400 < now)%Z
  | Hourly => True
  | Fetched _ _ r => r = None
  end.
Theorem C116_stale_refuted : forall target decimals events s, (forall e, In e events -> cut_off s e) -> vote (fold_left (fun s e => fst (step target decimals s e)) events s) = vote s.
Proof.
  intros target decimals events. induction events as [|e events IH]; intros s A; [reflexivity|]. cbn [fold_left].
  assert (Q : files (fst (step target decimals s e)) = files s /\ vote (fst (step target decimals s e)) = vote s).
  { pose proof (A e (or_introl eq_refl)) as C. destruct e as [now swap| |k now r]; cbn [step fst]; cbn [cut_off] in C.
    - destruct (look_fold now gold_sources s [] false []) as (? & G & ? & ? & _ & _ & _ & _ & _ & QG & _).
      destruct (look_fold now mmx_sources s [] false []) as (? & M0 & ? & ? & _ & _ & _ & _ & _ & QM & _).
      assert (NC : forall k p, In k gold_sources -> ~ counts s now k p) by (intros k p I (t & c & F & L & _); specialize (C k t c I F); lia).
      assert (G = []).
      { apply (quotes_fun s now gold_sources); auto. unfold gold_sources in *. repeat (apply quotes_out; [intros p; apply NC; cbn; auto|]). constructor. }
      subst G. destruct (update_eq target decimals s now swap [] M0 QG QM) as (F & _ & ->). split; [exact F|]. cbn [get_median].
      replace (existsb (is_expired s now) gold_sources) with true; auto. symmetry. apply existsb_exists. exists GoldApi. split; [cbn; auto|].
      unfold is_expired. destruct (files s GoldApi) as [[t c]|] eqn:F0; auto. apply Z.ltb_lt. specialize (C GoldApi t c ltac:(cbn; auto) F0). lia.
    - split; reflexivity.
    - subst r. destruct (mem k (pending s)); split; reflexivity. }
  destruct Q as (F & V). rewrite IH; [exact V|]. intros x I. specialize (A x (or_intror I)). destruct x; cbn [cut_off] in *; auto. rewrite F. exact A.
Qed.
Print Assumptions C116_stale_refuted.

(** ** Cases *)
Definition T0 : Q := 2000.
Definition st0 (l : list (source * (Z * content))) : state :=
  mk (fun k => match find (fun e => source_eqb (fst e) k) l with Some e => Some (snd e) | None => None end) [] [] 0.
Definition three (a b c : Q) := [(GoldApi, (0%Z, Spot true (Some a))); (Swissquote, (0%Z, BidAsk (Some (b - 1)) (Some (b + 1)))); (GoldpriceDev, (0%Z, Spot true (Some c)))].
Definition coin (p : Q) := [(Safetrade, (0%Z, Spot true (Some p)))].
Definition vote_of l now swap := vote (fst (update_control T0 6 (st0 l) now swap)).
Example C116_case :
  vote_of (three 4000 4010 4005 ++ coin 2) 100 None = 0%Z /\ vote_of (three 4000 4010 4005 ++ coin 1) 100 None = (-1)%Z /\ vote_of (three 4000 4010 4005 ++ coin 3) 100 None = 1%Z /\
  (* one source is wrong by far, or all of the coin but the swap *)
  vote_of (three 4000 400000 4005 ++ coin 2) 100 None = 0%Z /\
  vote_of (three 4000 4010 4005) 100 (Some (1000000, 2000000, 6)%N) = 0%Z /\
  (* too old *)
  vote_of (three 4000 4010 4005 ++ coin 1) 86401 None = 0%Z /\ vote_of (three 4000 4010 4005 ++ coin 1) 86400 None = (-1)%Z /\
  snd (update_control T0 6 start 5 None) = gold_sources.
Proof. vm_compute. auto 10. Qed.
Example C116_case_median : median [5; 1; 4; 2] ((2 + 4) / 2) /\ median [3; 1; 2] 2 /\ majority 3999 4011 [4000; 400000; 4010].
Proof.
  split; [|split].
  - apply (median_even _ [1] 2 4 [5]); [|reflexivity| | |].
    + apply Permutation_sym, perm_trans with (1 :: 5 :: [2; 4]); [apply perm_skip; change [2; 4; 5] with ([2; 4] ++ [5]); apply Permutation_sym, Permutation_cons_append|].
      apply perm_trans with (5 :: 1 :: [2; 4]); [apply perm_swap|]. do 2 apply perm_skip. apply perm_swap.
    + intros z [<-|[]]. lra.
    + lra.
    + intros z [<-|[]]. lra.
  - apply (median_odd _ [1] 2 [3]); [|reflexivity| |].
    + change [1; 2; 3] with ([1; 2] ++ [3]). apply Permutation_cons_append.
    + intros z [<-|[]]. lra.
    + intros z [<-|[]]. lra.
  - unfold majority. vm_compute. lia.
Qed.
(** With two sources one is enough to turn the vote; an absurd spread between bid and ask counts; and so does a vote from a year ago. *)
Example C116_weak_refuted :
  vote_of ([(GoldApi, (0%Z, Spot true (Some 4000))); (GoldpriceDev, (0%Z, Spot true (Some 400000)))] ++ coin 2) 100 None = (-1)%Z /\
  parse Swissquote (BidAsk (Some 4000) (Some 4000000)) = Some ((4000 + 4000000) / 2) /\
  (let s := fst (update_control T0 6 (st0 (three 4000 4010 4005 ++ coin 1)) 100 None) in
   vote s = (-1)%Z /\ vote (fst (update_control T0 6 s 31536000 None)) = (-1)%Z).
Proof. vm_compute. auto. Qed.
