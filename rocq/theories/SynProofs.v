(** * Proofs about the sync engine *)
From Coq Require Import List NArith ZArith Bool Lia.
Require Import Verif.SynModel Verif.SynSpec.
Import ListNotations.
Local Open Scope N_scope.

(** ** Sets and multisets of heights *)
Lemma mem_In h l : mem h l = true <-> In h l.
Proof.
  unfold mem. rewrite existsb_exists. split.
  - intros [x [I E]]. apply N.eqb_eq in E. subst. exact I.
  - intros I. exists h. split; [exact I | apply N.eqb_refl].
Qed.
Lemma mem_false h l : mem h l = false <-> ~ In h l.
Proof. rewrite <- mem_In. destruct (mem h l); split; intros; try congruence; exfalso; auto. Qed.
Lemma insert_In x h l : In x (insert h l) <-> x = h \/ In x l.
Proof.
  unfold insert. destruct (mem h l) eqn:E; cbn.
  - apply mem_In in E. split; [auto | intros [-> | I]; auto].
  - split; intros [<- | I]; auto.
Qed.
Lemma erase_In x h l : In x (erase h l) <-> In x l /\ x <> h.
Proof.
  unfold erase. rewrite filter_In. split; intros [I E]; split; auto.
  - apply negb_true_iff, N.eqb_neq in E. congruence.
  - apply negb_true_iff, N.eqb_neq. congruence.
Qed.
Lemma take_one_In x h l : In x (take_one h l) -> In x l.
Proof.
  induction l as [| y l IH]; cbn; auto. destruct (h =? y); cbn; intros I; auto.
  destruct I; auto.
Qed.
Lemma take_one_keep x h l : In x l -> x <> h -> In x (take_one h l).
Proof.
  induction l as [| y l IH]; cbn; auto. intros I D. destruct (h =? y) eqn:E.
  - apply N.eqb_eq in E. subst. destruct I; [congruence | auto].
  - destruct I; cbn; auto.
Qed.
Fixpoint occ (h : N) (l : list N) : nat :=
  match l with [] => O | x :: r => ((if (x =? h)%N then 1 else 0) + occ h r)%nat end.
Lemma take_one_occ h x l : In h l ->
  occ x l = ((if (h =? x)%N then 1 else 0) + occ x (take_one h l))%nat.
Proof.
  induction l as [| y l IH]; cbn; [tauto |]. intros I. destruct (h =? y) eqn:E.
  - apply N.eqb_eq in E. subst. reflexivity.
  - cbn. destruct I as [-> | I]; [rewrite N.eqb_refl in E; discriminate |].
    rewrite (IH I). lia.
Qed.
Lemma occ_0 l : (forall h, occ h l = O) -> l = [].
Proof.
  destruct l as [| x l]; auto. intros H. specialize (H x). cbn in H.
  rewrite N.eqb_refl in H. discriminate.
Qed.

Arguments erase : simpl never.
Arguments insert : simpl never.
Arguments mem : simpl never.

(** ** Records *)
Lemma this_sync_fun x r t a r' t' a' :
  this_sync x r t a -> this_sync x r' t' a' -> r = r' /\ t = t' /\ a = a'.
Proof.
  intros [E F] [E' F']. subst x. revert t' E' F'. induction t as [| e t IH]; intros [| e' t'] E F'; cbn in E.
  - inversion E; auto.
  - inversion E; subst. inversion F'; subst. cbn in *. tauto.
  - inversion E; subst. inversion F; subst. cbn in *. tauto.
  - inversion E; subst. inversion F; inversion F'; subst.
    destruct (IH H3 t' H1 H7) as [-> [-> ->]]; auto.
Qed.
Lemma this_sync_cons e x r t a : not_start e -> this_sync x r t a -> this_sync (e :: x) r (e :: t) a.
Proof. intros N [-> F]. split; [reflexivity | constructor; auto]. Qed.
Lemma this_sync_uncons e x r t a : not_start e -> this_sync (e :: x) r t a ->
  exists t', t = e :: t' /\ this_sync x r t' a.
Proof.
  intros N [E F]. destruct t as [| e' t]; cbn in E; inversion E; subst.
  - cbn in N. tauto.
  - inversion F; subst. exists t. split; [reflexivity | split; auto].
Qed.

Lemma answered_cons e t h : answered t h -> answered (e :: t) h.
Proof. intros [n I]. exists n. right; exact I. Qed.
Lemma got_cons e t h : answered_with_blocks t h -> answered_with_blocks (e :: t) h.
Proof. intros [n [D I]]. exists n. split; [exact D | right; exact I]. Qed.
Lemma given_up_cons e t h : e <> EReq h -> given_up t h -> given_up (e :: t) h.
Proof.
  intros D [b [a [-> U]]]. exists (e :: b), a. split; [reflexivity |].
  intros [E | I]; [congruence | auto].
Qed.
Lemma given_up_fail t h : given_up (EFail h :: t) h.
Proof. exists [], t. split; [reflexivity | auto]. Qed.
Lemma quiet_cons e x : quiet (e :: x) -> quiet x.
Proof. intros Q b f a ->. apply (Q (e :: b) f a). reflexivity. Qed.
Lemma quiet_head e x : quiet (e :: x) -> match e with EStart _ | ERetry _ => settled x | _ => True end.
Proof. intros Q. apply (Q [] e x). reflexivity. Qed.

(** ** What every event in the record must meet *)
Definition claim (c : conf) (e : ev) (x : list ev) : Prop :=
  match e with
  | EReq h => h <> 0
  | ECommit h =>
      forall r t a, this_sync x r t a -> Forall not_done t -> settled a -> r < h ->
        answered t h \/ given_up t h
  | ERetry now =>
      forall b n a, x = b ++ ERetry n :: a -> count is_retry b = O -> (c_interval c / 2 < now - n)%Z
  | EDone =>
      forall r t a, this_sync x r t a -> Forall not_done t ->
        N.of_nat (count is_empty_answer t) >= c_retries c + 1
        /\ N.of_nat (count is_retry t) >= c_retries c
        /\ exists p, In (EAns p 0) t
           /\ (settled a -> forall h, r < h < p -> answered t h \/ given_up t h)
           /\ (quiet x -> forall h, r < h < p ->
                 answered_with_blocks t h \/ In (ECommit h) t \/ given_up t h)
  | _ => True
  end.

Definition claims (c : conf) (x : list ev) : Prop :=
  forall b e a, x = b ++ e :: a -> claim c e a.
Lemma claims_cons c e x : claim c e x -> claims c x -> claims c (e :: x).
Proof.
  intros C H b f a E. destruct b as [| g b]; cbn in E; inversion E; subst; auto.
  eapply H; reflexivity.
Qed.

(** ** The invariant of a sync under way *)
Record part1 (r : N) (t a : list ev) (pos start retry : N) (pend : list N) (peak : option N)
       (root : N) (flight : list N) (M : N) : Prop := {
  p1_r : r < M;
  p1_pos : pos <= M;
  p1_start : start <= M;
  p1_root : root < M;
  p1_all : forall h, r < h < M -> In h pend \/ answered t h \/ given_up t h;
  p1_fl : forall h, In h flight -> h < M \/ h <= r;
  p1_pk : forall p, peak = Some p -> p < M \/ p <= r
}.

Record part2 (r : N) (t : list ev) (pos start : N) (pend : list N) (peak : option N)
       (root : N) (flight : list N) (M : N) : Prop := {
  p2_r : r < M;
  p2_pos : pos <= M;
  p2_start : start <= M;
  p2_all : forall h, r < h < M ->
    In h pend \/ answered_with_blocks t h \/ (exists p, peak = Some p /\ p <= h)
    \/ given_up t h \/ In (ECommit h) t;
  p2_fl : forall h, In h flight -> h < M \/ h <= r;
  p2_pk : forall p, peak = Some p -> p < M \/ p <= r
}.

Record part0 (r : N) (t : list ev) (start retry : N) (peak : option N) (root : N) : Prop := {
  p0_root : forall h, r < h <= root -> In (ECommit h) t;
  p0_start : forall h, r < h < start -> In (ECommit h) t;
  p0_pe : forall p, peak = Some p -> In (EAns p 0) t;
  p0_n : retry + (match peak with Some _ => 1 | None => 0 end) <= N.of_nat (count is_empty_answer t);
  p0_m : N.of_nat (count is_retry t) = retry
}.

Definition body r t a pos start retry pend peak root flight : Prop :=
  part0 r t start retry peak root
  /\ (settled a -> exists M, part1 r t a pos start retry pend peak root flight M)
  /\ (quiet (t ++ EStart r :: a) -> exists M, part2 r t pos start pend peak root flight M).

Record glob (c : conf) (x : list ev) (finish : Z) (pend flight : list N) : Prop := {
  g_count : forall h, count (is_req h) x = (count (is_reply h) x + occ h flight)%nat;
  g_claims : claims c x;
  g_fin : forall b n a, x = b ++ ERetry n :: a -> count is_retry b = O -> finish = n;
  g_pf : forall h, In h pend -> In h flight;
  g_nd : NoDup pend
}.

Record inv (c : conf) (s : st) : Prop := {
  i_g : glob c (tr s) (finish s) (pend s) (flight s);
  i_no : synced s = false -> exists r t a, this_sync (tr s) r t a /\ Forall not_done t
       /\ body r t a (pos s) (start s) (retry s) (pend s) (peak s) (root s) (flight s);
  i_yes : synced s = true -> forall r t a, this_sync (tr s) r t a -> ~ Forall not_done t
}.

Lemma settled_flight c x f p fl : glob c x f p fl -> settled x -> fl = [].
Proof.
  intros G S. apply occ_0. intros h. pose proof (g_count _ _ _ _ _ G h). rewrite (S h) in H. lia.
Qed.

(** ** Steps *)
Ltac cons_this H :=
  match type of H with
  | this_sync (?e :: _) _ _ _ => apply this_sync_uncons in H; [| exact I]; destruct H as [? [-> H]]
  end.

Lemma fin_other c e x f p fl : (match e with ERetry _ => False | _ => True end) ->
  glob c x f p fl ->
  forall b n a, e :: x = b ++ ERetry n :: a -> count is_retry b = O -> f = n.
Proof.
  intros N G b n a E K. destruct b as [| g b]; cbn in E; inversion E; subst; [tauto |].
  apply (g_fin _ _ _ _ _ G b n a eq_refl). unfold count in *. cbn in K.
  destruct g; cbn in *; auto. discriminate.
Qed.

Lemma glob_req c x f p fl h : h <> 0 -> glob c x f p fl ->
  glob c (EReq h :: x) f (insert h p) (h :: fl).
Proof.
  intros Z G. split.
  - intros g. pose proof (g_count _ _ _ _ _ G g) as E. unfold count in *. cbn.
    destruct (h =? g) eqn:D; cbn; rewrite E; lia.
  - apply claims_cons; [exact Z | apply (g_claims _ _ _ _ _ G)].
  - eapply (fin_other c (EReq h)); cbn; eauto.
  - intros g I. apply insert_In in I. destruct I as [-> | I]; cbn; auto.
    right. apply (g_pf _ _ _ _ _ G _ I).
  - unfold insert. destruct (mem h p) eqn:D; [apply (g_nd _ _ _ _ _ G) |].
    constructor; [apply mem_false; exact D | apply (g_nd _ _ _ _ _ G)].
Qed.

Lemma body_req r t a q st rt p pk ro fl q' st' h :
  body r t a q st rt p pk ro fl ->
  q' <= N.max q (h + 1) -> st' <= st -> h <= q \/ h <= st ->
  body r (EReq h :: t) a q' st' rt (insert h p) pk ro (h :: fl).
Proof.
  intros [P0 [P1 P2]] Q S HH. split; [| split].
  - destruct P0 as [A B C D E]. split.
    + intros g K. right. auto.
    + intros g K. right. apply B. lia.
    + intros g K. right. auto.
    + unfold count in *. cbn. exact D.
    + unfold count in *. cbn. exact E.
  - intros SA. destruct (P1 SA) as [M [A B C D E F G]]. exists (N.max M (h + 1)). split; try lia.
    + intros g K. rewrite insert_In. destruct (N.eq_dec g h) as [-> | NE]; auto.
      destruct (E g) as [I | [I | I]]; auto; [lia | |].
      * right; left. apply answered_cons; exact I.
      * right; right. apply given_up_cons; [congruence | exact I].
    + intros g [<- | I]; [lia |]. destruct (F g I); lia.
    + intros g I. destruct (G g I); lia.
  - intros Qt. apply quiet_cons in Qt. destruct (P2 Qt) as [M' [A B C D E F]].
    exists (N.max M' (h + 1)). split; try lia.
    + intros g K. rewrite insert_In. destruct (N.eq_dec g h) as [-> | NE]; auto.
      destruct (D g) as [I | [I | [I | [I | I]]]]; auto; [lia | | |].
      * right; left. apply got_cons; exact I.
      * right; right; right; left. apply given_up_cons; [congruence | exact I].
      * right; right; right; right. right; exact I.
    + intros g [<- | I]; [lia |]. destruct (E g I); lia.
    + intros g I. destruct (F g I); lia.
Qed.

Lemma yes_cons e x : not_start e -> 
  (forall r t a, this_sync x r t a -> ~ Forall not_done t) ->
  (forall r t a, this_sync (e :: x) r t a -> ~ Forall not_done t).
Proof.
  intros N H r t a T F. apply this_sync_uncons in T; [| exact N]. destruct T as [t' [-> T]].
  inversion F; subst. eapply H; eauto.
Qed.

Lemma inv_loop_step c s : inv c s -> pos s <> 0 ->
  inv c (sync_height (set_pos s (pos s + 1)) (pos s)).
Proof.
  intros [G A Y] Z. split; cbn.
  - apply glob_req; auto.
  - intros E. destruct (A E) as [r [t [a [T [F B]]]]]. exists r, (EReq (pos s) :: t), a.
    split; [apply this_sync_cons; cbn; auto |]. split; [constructor; cbn; auto |].
    eapply body_req; [exact B | lia | lia | lia].
  - intros E. exact (yes_cons (EReq (pos s)) _ I (Y E)).
Qed.

Lemma inv_loop c mp : forall fuel s, inv c s -> pos s <> 0 -> inv c (more_loop fuel s mp).
Proof.
  induction fuel as [| f IH]; intros s V Z; cbn; auto. destruct (more_cond s mp); auto.
  apply IH; [apply inv_loop_step; auto | cbn; lia].
Qed.

Lemma inv_begin c s : synced s = false -> inv c s -> inv c (begin_pos s) /\ pos (begin_pos s) <> 0.
Proof.
  intros NS V. unfold begin_pos. destruct (pos s =? 0) eqn:E.
  2: { apply N.eqb_neq in E. auto. }
  split; [| cbn; lia]. destruct V as [G A Y]. split; cbn; auto.
  intros K. destruct (A K) as [r [t [a [T [F [P0 [P1 P2]]]]]]]. exists r, t, a.
  split; auto. split; auto. split; [| split].
  - destruct P0 as [B C D H I]. split; auto. intros g L. apply B. lia.
  - intros SA. destruct (P1 SA) as [M [B C D H I J L]]. exists M. split; auto; lia.
  - intros Q. destruct (P2 Q) as [M' [B C D H I J]]. exists (N.max M' (root s + 1)). split; try lia.
    + intros g L. destruct (N.lt_ge_cases g M') as [LT | GE]; [apply H; lia |].
      right; right; right; right. apply (p0_root _ _ _ _ _ _ P0). lia.
    + intros g L. destruct (I g L); lia.
    + intros g L. destruct (J g L); lia.
Qed.

Lemma inv_more c s mp : inv c s -> inv c (sync_more c s mp).
Proof.
  intros V. unfold sync_more. destruct (synced s) eqn:E; auto.
  destruct (inv_begin c s E V) as [V' Z]. destruct (at_limit c (begin_pos s)); auto.
  apply inv_loop; auto.
Qed.

Lemma glob_start c x f p fl r : glob c x f p fl -> glob c (EStart r :: x) f p fl.
Proof.
  intros G. split.
  - intros h. apply (g_count _ _ _ _ _ G h).
  - apply claims_cons; [exact I | apply (g_claims _ _ _ _ _ G)].
  - eapply (fin_other c (EStart r)); cbn; eauto.
  - apply (g_pf _ _ _ _ _ G).
  - apply (g_nd _ _ _ _ _ G).
Qed.

Lemma inv_start_core c s mp : glob c (tr s) (finish s) (pend s) (flight s) ->
  inv c (sync_more c (log (set_retry (set_peak (set_pos (set_synced s false) 0) None) 0) (EStart (root s))) mp).
Proof.
  intros G. unfold sync_more. cbn [synced log set_retry set_peak set_pos set_synced].
  set (s' := log _ _).
  assert (V : inv c (begin_pos s') /\ pos (begin_pos s') <> 0).
  { split; [| cbn; lia]. unfold begin_pos. cbn. split; cbn; [apply glob_start; exact G | | congruence].
    intros _. exists (root s), [], (tr s). split; [split; constructor |]. split; [constructor |].
    split; [| split].
    - split; cbn; intros; try lia; try discriminate.
    - intros SA. rewrite (settled_flight _ _ _ _ _ G SA).
      exists (root s + 1). split; cbn; intros; try lia; try discriminate; tauto.
    - intros Q. apply quiet_head in Q. rewrite (settled_flight _ _ _ _ _ G) by auto.
      exists (root s + 1). split; cbn; intros; try lia; try discriminate; tauto. }
  destruct V as [V Z]. destruct (at_limit c (begin_pos s')); auto. apply inv_loop; auto.
Qed.

Lemma inv_start c s force mp : inv c s -> inv c (start_sync c s force mp).
Proof.
  intros V. unfold start_sync. destruct (_ && _); auto. cbn [root set_retry set_peak set_pos set_synced].
  apply inv_start_core. apply V.
Qed.
Lemma inv_revert c s h mp : inv c s -> inv c (revert_sync c s h mp).
Proof.
  intros V. unfold revert_sync, start_sync. rewrite andb_false_r.
  destruct (h <=? root s); [apply (inv_start_core c (set_root s (h - 1))) | apply (inv_start_core c s)]; apply V.
Qed.

Lemma body_root r t a q st rt p pk ro fl ro' : ro' <= ro ->
  body r t a q st rt p pk ro fl -> body r t a q st rt p pk ro' fl.
Proof.
  intros L [P0 [P1 P2]]. split; [| split].
  - destruct P0 as [A B C D E]. split; auto. intros h K. apply A. lia.
  - intros SA. destruct (P1 SA) as [M []]. exists M. split; auto; lia.
  - intros Q. destruct (P2 Q) as [M' K]. exists M'. destruct K. split; auto.
Qed.

Lemma inv_lower c s b : inv c s -> inv c (set_root s (N.min (root s) b)).
Proof.
  intros [G A Y]. split; cbn; auto. intros E.
  destruct (A E) as [r [t [a [T [F B]]]]]. exists r, t, a. split; auto. split; auto.
  eapply body_root; [| exact B]. lia.
Qed.

Lemma glob_commit c x f p fl h :
  (forall r t a, this_sync x r t a -> Forall not_done t -> settled a -> r < h -> answered t h \/ given_up t h) ->
  glob c x f p fl -> glob c (ECommit h :: x) f p fl.
Proof.
  intros C G. split.
  - intros g. apply (g_count _ _ _ _ _ G g).
  - apply claims_cons; [exact C | apply (g_claims _ _ _ _ _ G)].
  - eapply (fin_other c (ECommit h)); cbn; eauto.
  - apply (g_pf _ _ _ _ _ G).
  - apply (g_nd _ _ _ _ _ G).
Qed.

Lemma inv_commit c top delay : forall n s, inv c s -> inv c (commit_loop n s top delay).
Proof.
  induction n as [| n IH]; intros s V; cbn; auto.
  destruct (_ && _) eqn:E; auto. apply IH. clear IH.
  apply andb_true_iff in E. destruct E as [E E3]. apply andb_true_iff in E. destruct E as [_ E2].
  apply negb_true_iff, mem_false in E2.
  destruct V as [G A Y].
  destruct (synced s) eqn:SY; cbn in E3.
  - split; cbn; [apply glob_commit; auto | congruence |].
    + intros r t a T F. exfalso. eapply Y; eauto.
    + intros _. exact (yes_cons (ECommit (root s + 1)) _ I (Y eq_refl)).
  - apply N.ltb_lt in E3. destruct (A eq_refl) as [r [t [a [T [F [P0 [P1 P2]]]]]]].
    split; cbn; [apply glob_commit; auto | | congruence].
    + intros r' t' a' T' F' SA L. destruct (this_sync_fun _ _ _ _ _ _ _ T T') as [<- [<- <-]].
      destruct (P1 SA) as [M P1'].
      destruct (p1_all _ _ _ _ _ _ _ _ _ _ _ P1' (root s + 1)) as [I | I]; auto; [| tauto].
      pose proof (p1_pos _ _ _ _ _ _ _ _ _ _ _ P1'). lia.
    + intros _. exists r, (ECommit (root s + 1) :: t), a.
      split; [apply this_sync_cons; cbn; auto |]. split; [constructor; cbn; auto |].
      split; [| split].
      * destruct P0 as [B C D H I]. split; auto.
        -- intros h K. destruct (N.eq_dec h (root s + 1)) as [-> | NE]; [left; reflexivity |].
           right. apply B. lia.
        -- intros h K. right. apply C. lia.
        -- intros h K. right. auto.
      * intros SA. destruct (P1 SA) as [M [B C D H I J L]]. exists M. split; auto; try lia.
        intros h K. destruct (I h K) as [O | [O | O]]; auto.
        -- right; left. apply answered_cons; exact O.
        -- right; right. apply given_up_cons; [congruence | exact O].
      * intros Q. apply quiet_cons in Q. destruct (P2 Q) as [M' [B C D H I J]]. exists M'. split; auto.
        intros h K. destruct (H h K) as [O | [O | [O | [O | O]]]]; auto.
        -- right; left. apply got_cons; exact O.
        -- right; right; right; left. apply given_up_cons; [congruence | exact O].
        -- right; right; right; right. right; exact O.
Qed.

Lemma glob_retry c x f p fl now : (c_interval c / 2 < now - f)%Z ->
  glob c x f p fl -> glob c (ERetry now :: x) now p fl.
Proof.
  intros L G. split.
  - intros h. apply (g_count _ _ _ _ _ G h).
  - apply claims_cons; [| apply (g_claims _ _ _ _ _ G)]. cbn. intros b n a E K.
    rewrite <- (g_fin _ _ _ _ _ G b n a E K). exact L.
  - intros b n a E K. destruct b as [| e b]; cbn in E; inversion E; subst; auto.
    cbn in K. discriminate.
  - apply (g_pf _ _ _ _ _ G).
  - apply (g_nd _ _ _ _ _ G).
Qed.

Lemma inv_finish c s now : inv c s -> inv c (finish_sync c s now).
Proof.
  intros V. unfold finish_sync. destruct (synced s) eqn:SY; auto.
  destruct (peak s) as [p |] eqn:PK; auto. destruct (pend s) as [| x l] eqn:PE; auto.
  destruct V as [G A Y]. destruct (A SY) as [r [t [a [T [F B]]]]].
  rewrite PK, PE in B. destruct B as [P0 [P1 P2]].
  destruct (retry s <? c_retries c) eqn:R.
  - destruct (_ <? _)%Z eqn:Z; [| split; auto].
    apply Z.ltb_lt in Z. apply N.ltb_lt in R. split; cbn; [| | congruence].
    + eapply glob_retry; eauto.
    + intros _. exists r, (ERetry now :: t), a.
      split; [apply this_sync_cons; cbn; auto |]. split; [constructor; cbn; auto |]. split; [| split].
      * destruct P0 as [B C D H I]. split.
        -- intros h K. right. auto.
        -- intros h K. right. auto.
        -- discriminate.
        -- unfold count in *. cbn. lia.
        -- unfold count in *. cbn. lia.
      * intros SA. destruct (P1 SA) as [M [B C D H I J L]]. exists M. rewrite PE.
        split; auto; try discriminate.
        -- destruct (L p eq_refl); lia.
        -- intros h K. destruct (I h) as [O | [O | O]]; [lia | tauto | |].
           ++ right; left. apply answered_cons; exact O.
           ++ right; right. apply given_up_cons; [congruence | exact O].
      * intros Q. pose proof (quiet_head _ _ Q) as SE. cbn in SE. apply quiet_cons in Q.
        destruct (P2 Q) as [M' [B C D H I J]]. fold (tr s) in *.
        assert (FL : flight s = []).
        { eapply settled_flight; [exact G |]. destruct T as [-> _]. exact SE. }
        rewrite FL, PE. exists (N.max p (N.max (start s) (r + 1))). split; try lia; try discriminate; try tauto.
        -- intros h K. destruct (N.lt_ge_cases h p) as [LT | GE].
           ++ assert (h < M') by (destruct (J p eq_refl); lia).
              destruct (H h) as [O | [O | [O | [O | O]]]]; [lia | tauto | | | |].
              ** right; left. apply got_cons; exact O.
              ** destruct O as [q [E K']]. inversion E; subst. lia.
              ** right; right; right; left. apply given_up_cons; [congruence | exact O].
              ** right; right; right; right. right; exact O.
           ++ right; right; right; right. right. apply (p0_start _ _ _ _ _ _ P0). lia.
        -- intros h [].
  - apply N.ltb_ge in R. split; cbn; [| congruence |].
    + split.
      * intros h. apply (g_count _ _ _ _ _ G h).
      * apply claims_cons; [| apply (g_claims _ _ _ _ _ G)]. cbn.
        intros r' t' a' T' F'. destruct (this_sync_fun _ _ _ _ _ _ _ T T') as [<- [<- <-]].
        destruct P0 as [B C D H I]. split; [lia |]. split; [lia |].
        exists p. split; [auto |]. split.
        -- intros SA h K. destruct (P1 SA) as [M P1'].
           destruct (p1_all _ _ _ _ _ _ _ _ _ _ _ P1' h) as [O | O]; cycle 1; [destruct O | exact O |].
           destruct (p1_pk _ _ _ _ _ _ _ _ _ _ _ P1' p eq_refl); lia.
        -- intros Q h K. destruct T as [E _]. rewrite E in Q. destruct (P2 Q) as [M' Z'].
           assert (HM : r < h < M') by (destruct (p2_pk _ _ _ _ _ _ _ _ _ Z' p eq_refl); lia).
           destruct (p2_all _ _ _ _ _ _ _ _ _ Z' h HM) as [O | [O | [O | [O | O]]]]; auto.
           ++ destruct O.
           ++ destruct O as [q [EQ O]]. inversion EQ; subst. lia.
      * eapply (fin_other c EDone); cbn; eauto.
      * intros h K. rewrite PE in K. destruct K.
      * rewrite PE. constructor.
    + intros _ r' t' a' T' F'. apply this_sync_uncons in T'; [| exact Logic.I].
      destruct T' as [t'' [-> _]]. inversion F'; subst. cbn in *. tauto.
Qed.

Lemma inv_update c s e : inv c s -> inv c (update c s e).
Proof.
  intros V. unfold update. apply inv_more, inv_finish.
  destruct (_ <? _); [apply inv_commit |]; apply inv_lower; exact V.
Qed.

Lemma NoDup_erase h l : NoDup l -> NoDup (erase h l).
Proof. apply NoDup_filter. Qed.

Lemma glob_reply c x f p fl h e : In h fl ->
  (exists n, e = EAns h n) \/ e = EFail h ->
  glob c x f p fl -> glob c (e :: x) f (erase h p) (take_one h fl).
Proof.
  intros IN E G. split.
  - intros g. pose proof (g_count _ _ _ _ _ G g) as Q. rewrite (take_one_occ h g fl IN) in Q.
    unfold count in *. destruct E as [[n ->] | ->]; cbn; destruct (h =? g); cbn in *; lia.
  - apply claims_cons; [| apply (g_claims _ _ _ _ _ G)]. destruct E as [[n ->] | ->]; exact I.
  - eapply (fin_other c e); [destruct E as [[n ->] | ->]; exact I | exact G].
  - intros g K. apply erase_In in K. destruct K as [K D]. apply take_one_keep; auto.
    apply (g_pf _ _ _ _ _ G _ K).
  - apply NoDup_erase. apply (g_nd _ _ _ _ _ G).
Qed.

Lemma inv_failed c s h : inv c s -> In h (flight s) -> inv c (sync_failed s h).
Proof.
  intros [G A Y] IN. split; cbn.
  - apply glob_reply; auto.
  - intros E. destruct (A E) as [r [t [a [T [F [P0 [P1 P2]]]]]]]. exists r, (EFail h :: t), a.
    split; [apply this_sync_cons; cbn; auto |]. split; [constructor; cbn; auto |]. split; [| split].
    + destruct P0 as [B C D H J]. split.
      * intros g K. right. auto.
      * intros g K. right. auto.
      * intros g K. right. auto.
      * exact H.
      * exact J.
    + intros SA. destruct (P1 SA) as [M [B C D H J K L]]. exists M. split; auto; try lia.
      * intros g Q. rewrite erase_In. destruct (N.eq_dec g h) as [-> | NE].
        -- right; right. apply given_up_fail.
        -- destruct (J g Q) as [O | [O | O]]; auto.
           ++ right; left. apply answered_cons; exact O.
           ++ right; right. apply given_up_cons; [congruence | exact O].
      * intros g Q. apply K. eapply take_one_In; exact Q.
    + intros Q. apply quiet_cons in Q. destruct (P2 Q) as [M [B C D H J K]]. exists M. split; auto; try lia.
      * intros g W. rewrite erase_In. destruct (N.eq_dec g h) as [-> | NE].
        -- right; right; right; left. apply given_up_fail.
        -- destruct (H g W) as [O | [O | [O | [O | O]]]]; auto.
           ++ right; left. apply got_cons; exact O.
           ++ right; right; right; left. apply given_up_cons; [congruence | exact O].
           ++ right; right; right; right. right; exact O.
      * intros g W. apply J. eapply take_one_In; exact W.
  - intros E. exact (yes_cons (EFail h) _ I (Y E)).
Qed.

(** The peak after an answer. *)
Definition peak_after (h : N) (blocks : list blk) (pk : option N) : option N :=
  match blocks with
  | [] => match pk with Some p => if h <? p then Some h else Some p | None => Some h end
  | _ => pk
  end.

Definition answer (s : st) (h : N) (blocks : list blk) (pk : option N) : st :=
  set_peak (log (set_flight (set_pend s (erase h (pend s))) (take_one h (flight s)))
                (EAns h (N.of_nat (length blocks)))) pk.

Lemma walk_back_peak pk : forall l s, walk_back (set_peak s pk) l = set_peak (walk_back s l) pk.
Proof.
  induction l as [| b l IH]; intros s; cbn; auto.
  destruct (negb (b_conn b) && (1 <? start s)).
  - rewrite <- IH. reflexivity.
  - apply IH.
Qed.

Lemma walk_back_keep : forall l s, synced (walk_back s l) = synced s /\ peak (walk_back s l) = peak s.
Proof.
  induction l as [| b l IH]; intros s; cbn; auto.
  destruct (negb (b_conn b) && (1 <? start s)); [| apply IH].
  destruct (IH (sync_height (set_start s (start s - 1)) (start s - 1))) as [-> ->]. auto.
Qed.

Lemma inv_answer c s h blocks : inv c s -> In h (flight s) ->
  inv c (answer s h blocks (if synced s then peak s else peak_after h blocks (peak s))).
Proof.
  intros [G A Y] IN. split; cbn.
  - apply glob_reply; eauto.
  - intros E. rewrite E. destruct (A E) as [r [t [a [T [F [P0 [P1 P2]]]]]]].
    set (n := N.of_nat (length blocks)). exists r, (EAns h n :: t), a.
    split; [apply this_sync_cons; cbn; auto |]. split; [constructor; cbn; auto |].
    assert (PA : forall p, peak_after h blocks (peak s) = Some p ->
                 peak s = Some p \/ (p = h /\ n = 0)).
    { intros p K. unfold peak_after in K. destruct blocks as [| b bl]; [| auto].
      destruct (peak s) as [q |]; [destruct (h <? q) |]; inversion K; subst; auto. }
    split; [| split].
    + destruct P0 as [B C D H J]. split.
      * intros g K. right. auto.
      * intros g K. right. auto.
      * intros p K. destruct (PA p K) as [K' | [-> K']]; [right; auto | left; rewrite K'; reflexivity].
      * unfold count, peak_after in *. unfold n. destruct blocks as [| b bl]; cbn.
        -- destruct (peak s) as [q |]; [destruct (h <? q) |]; lia.
        -- destruct (peak s); lia.
      * exact J.
    + intros SA. destruct (P1 SA) as [M [B C D H J K L]]. exists M. split; auto; try lia.
      * intros g Q. rewrite erase_In. destruct (N.eq_dec g h) as [-> | NE].
        -- right; left. exists n. left; reflexivity.
        -- destruct (J g Q) as [O | [O | O]]; auto.
           ++ right; left. apply answered_cons; exact O.
           ++ right; right. apply given_up_cons; [congruence | exact O].
      * intros g Q. apply K. eapply take_one_In; exact Q.
      * intros p Q. destruct (PA p Q) as [Q' | [-> _]]; auto.
    + intros Q. apply quiet_cons in Q. destruct (P2 Q) as [M [B C D H J K]]. exists M. split; auto; try lia.
      * intros g W. rewrite erase_In.
        assert (LE : forall p, peak s = Some p -> exists q, peak_after h blocks (peak s) = Some q /\ q <= p).
        { intros p ->. unfold peak_after. destruct blocks as [| b bl].
          - destruct (h <? p) eqn:X; [apply N.ltb_lt in X |]; eexists; split; try reflexivity; lia.
          - exists p. split; [reflexivity | lia]. }
        destruct (N.eq_dec g h) as [-> | NE].
        -- destruct blocks as [| b bl].
           ++ right; right; left. unfold peak_after. destruct (peak s) as [q |].
              ** destruct (h <? q) eqn:X; [| apply N.ltb_ge in X]; eexists; split; try reflexivity; lia.
              ** exists h. split; [reflexivity | lia].
           ++ right; left. exists n. split; [unfold n; cbn; lia | left; reflexivity].
        -- destruct (H g W) as [O | [O | [O | [O | O]]]]; auto.
           ++ right; left. apply got_cons; exact O.
           ++ right; right; left. destruct O as [p [O1 O2]]. destruct (LE p O1) as [q [Q1 Q2]].
              exists q. split; [exact Q1 | lia].
           ++ right; right; right; left. apply given_up_cons; [congruence | exact O].
           ++ right; right; right; right. right; exact O.
      * intros g W. apply J. eapply take_one_In; exact W.
      * intros p W. destruct (PA p W) as [W' | [-> _]]; auto.
  - intros E. exact (yes_cons (EAns h _) _ I (Y E)).
Qed.

Lemma inv_walk_back c : forall l s, inv c s -> inv c (walk_back s l).
Proof.
  induction l as [| b l IH]; intros s V; cbn; auto. apply IH.
  destruct (negb (b_conn b) && (1 <? start s)) eqn:E; auto.
  apply andb_true_iff in E. destruct E as [_ E]. apply N.ltb_lt in E.
  destruct V as [G A Y]. split; cbn.
  - apply glob_req; [lia | exact G].
  - intros K. destruct (A K) as [r [t [a [T [F B]]]]]. exists r, (EReq (start s - 1) :: t), a.
    split; [apply this_sync_cons; cbn; auto |]. split; [constructor; cbn; auto |].
    eapply body_req; [exact B | lia | lia | lia].
  - intros K. exact (yes_cons (EReq (start s - 1)) _ I (Y K)).
Qed.

Lemma sync_result_eq c s h result e :
  let blocks := usable c (e_now e) result in
  let s1 := answer s h blocks (if synced s then peak s else peak_after h blocks (peak s)) in
  let s2 := if h =? start s then walk_back s1 blocks else s1 in
  sync_result c s h result e =
  if synced s then s2
  else if ((h mod c_jobs c =? 0) || match pend s2 with [] => true | _ => false end) && (retry s2 =? 0)
       then update c s2 e else sync_more c s2 (e_mp e).
Proof.
  intros blocks s1 s2. unfold sync_result. fold blocks.
  set (s0 := log (set_flight (set_pend s (erase h (pend s))) (take_one h (flight (set_pend s (erase h (pend s))))))
                 (EAns h (N.of_nat (length blocks)))).
  assert (SS : start s0 = start s) by reflexivity. rewrite SS.
  set (w := if h =? start s then walk_back s0 blocks else s0).
  assert (KW : synced w = synced s /\ peak w = peak s).
  { unfold w. destruct (h =? start s); [| auto]. destruct (walk_back_keep blocks s0) as [-> ->]; auto. }
  destruct KW as [KW1 KW2]. rewrite KW1, KW2.
  assert (E2 : s2 = set_peak w (if synced s then peak s else peak_after h blocks (peak s))).
  { unfold s2, w, s1, answer. destruct (h =? start s); [| reflexivity].
    rewrite walk_back_peak. reflexivity. }
  destruct (synced s) eqn:SY.
  - rewrite E2. rewrite <- KW2. destruct w; reflexivity.
  - assert (E3 : match blocks with
             | [] => match peak s with
                     | Some p => if h <? p then set_peak w (Some h) else w
                     | None => set_peak w (Some h)
                     end
             | _ => w
             end = s2).
    { rewrite E2. unfold peak_after. destruct blocks as [| b bl].
      - destruct (peak s) as [p |]; [destruct (h <? p) |]; try reflexivity.
        rewrite <- KW2. destruct w; reflexivity.
      - rewrite <- KW2. destruct w; reflexivity. }
    rewrite E3. reflexivity.
Qed.

Lemma inv_result c s h l e : inv c s -> In h (flight s) -> inv c (sync_result c s h l e).
Proof.
  intros V IN. rewrite sync_result_eq. cbv zeta.
  set (blocks := usable c (e_now e) l).
  set (s1 := answer s h blocks _). set (s2 := if h =? start s then _ else _).
  assert (V1 : inv c s1) by (apply inv_answer; auto).
  assert (V2 : inv c s2) by (unfold s2; destruct (h =? start s); [apply inv_walk_back |]; exact V1).
  destruct (synced s); auto. destruct (_ && _); [apply inv_update | apply inv_more]; exact V2.
Qed.

Lemma inv_step c s o : inv c s -> inv c (step c s o).
Proof.
  intros V. destruct o; cbn.
  - destruct (mem h (flight s)) eqn:E; auto. apply inv_result; [exact V | apply mem_In; exact E].
  - destruct (mem h (flight s)) eqn:E; auto. apply inv_failed; [exact V | apply mem_In; exact E].
  - apply inv_update; exact V.
  - apply inv_start; exact V.
  - apply inv_revert; exact V.
Qed.

Lemma glob_0 c : glob c [] 0 [] [].
Proof.
  split; auto.
  - intros b e a E. destruct b; discriminate.
  - intros b n a E. destruct b; discriminate.
  - constructor.
Qed.

Lemma inv_boot c height mp : inv c (boot c height mp).
Proof.
  unfold boot. destruct (c_sync c) eqn:E.
  - unfold start_sync. rewrite andb_false_r.
    exact (inv_start_core c (St false 0 0 0 0 [] None height [] []) mp (glob_0 c)).
  - split; cbn; [apply glob_0 | congruence |]. intros _ r t a [T _]. destruct t; discriminate.
Qed.

Lemma inv_run c height mp l : inv c (run c height mp l).
Proof.
  unfold run. generalize (inv_boot c height mp). generalize (boot c height mp).
  induction l as [| o l IH]; intros s V; cbn; auto. apply IH, inv_step, V.
Qed.

(** ** The loop of sync_more runs until its condition fails *)
Definition above (p : N) (l : list N) : nat := length (filter (fun x => p <=? x) l).

Lemma above_step p l : NoDup l ->
  (above p l = above (p + 1) l + (if mem p l then 1 else 0))%nat.
Proof.
  unfold above. induction l as [| x l IH]; intros D; cbn; auto.
  inversion D; subst. specialize (IH H2). change (mem p (x :: l)) with ((p =? x) || mem p l).
  destruct (p =? x) eqn:E.
  - apply N.eqb_eq in E. subst x. cbn. apply mem_false in H1. rewrite H1 in IH.
    replace (p <=? p) with true by (symmetry; apply N.leb_le; lia).
    replace (p + 1 <=? p) with false by (symmetry; apply N.leb_gt; lia). cbn. lia.
  - apply N.eqb_neq in E. cbn.
    destruct (p <=? x) eqn:A; [apply N.leb_le in A | apply N.leb_gt in A].
    + replace (p + 1 <=? x) with true by (symmetry; apply N.leb_le; lia). cbn. lia.
    + replace (p + 1 <=? x) with false by (symmetry; apply N.leb_gt; lia). cbn. lia.
Qed.

Lemma more_loop_stops mp : forall fuel s, NoDup (pend s) ->
  (above (pos s) (pend s) + (N.to_nat mp - length (pend s)) <= fuel)%nat ->
  more_cond (more_loop fuel s mp) mp = false.
Proof.
  induction fuel as [| f IH]; intros s D L; cbn [more_loop].
  - unfold more_cond. replace (_ <? mp) with false; [reflexivity |]. symmetry. apply N.ltb_ge. lia.
  - destruct (more_cond s mp) eqn:C; [| exact C]. apply IH; cbn.
    + unfold insert. destruct (mem (pos s) (pend s)) eqn:E; auto.
      constructor; [apply mem_false; exact E | exact D].
    + pose proof (above_step (pos s) (pend s) D) as A. revert A.
      unfold more_cond in C. apply andb_true_iff in C. destruct C as [C _]. apply N.ltb_lt in C.
      unfold insert. destruct (mem (pos s) (pend s)) eqn:E; intros A; unfold above in *; [lia |].
      cbn. replace (pos s + 1 <=? pos s) with false by (symmetry; apply N.leb_gt; lia).
      cbn. lia.
Qed.

Lemma above_le p l : (above p l <= length l)%nat.
Proof. apply filter_length_le || idtac. unfold above. induction l as [| x l IH]; cbn; auto. destruct (p <=? x); cbn; lia. Qed.

Lemma more_loop_root mp : forall fuel s, let s' := more_loop fuel s mp in
  root s' = root s /\ synced s' = synced s /\ peak s' = peak s /\ retry s' = retry s /\ finish s' = finish s.
Proof.
  induction fuel as [| f IH]; intros s; cbn; auto. destruct (more_cond s mp); auto.
  destruct (IH (sync_height (set_pos s (pos s + 1)) (pos s))) as [-> [-> [-> [-> ->]]]]. auto.
Qed.

Lemma begin_pos_keep s : let s' := begin_pos s in
  root s' = root s /\ synced s' = synced s /\ peak s' = peak s /\ retry s' = retry s
  /\ finish s' = finish s /\ pend s' = pend s /\ (pos s <= pos s').
Proof.
  unfold begin_pos. destruct (pos s =? 0) eqn:E; cbn; repeat split; auto; try lia.
  apply N.eqb_eq in E. lia.
Qed.

(** After sync_more a request is outstanding, or the end is reached, or the
    limit of blocks in memory. *)
Lemma more_progress c s mp : NoDup (pend s) -> synced s = false ->
  let s' := sync_more c s mp in
  pend s' <> [] \/ (exists p, peak s' = Some p /\ peak s = Some p /\ p <= pos s') \/ at_limit c s' = true.
Proof.
  intros D SY. unfold sync_more. rewrite SY.
  destruct (begin_pos_keep s) as [K1 [K2 [K3 [K4 [K5 [K6 K7]]]]]].
  destruct (at_limit c (begin_pos s)) eqn:L; [auto |].
  set (m := max_pending (begin_pos s) mp). set (s0 := begin_pos s) in *.
  set (s1 := more_loop _ s0 m).
  assert (C : more_cond s1 m = false).
  { apply more_loop_stops; [rewrite K6; exact D |]. pose proof (above_le (pos s0) (pend s0)). lia. }
  assert (M2 : 2 <= m) by (unfold m, max_pending; destruct (retry s0 =? 0); lia).
  unfold more_cond in C. apply andb_false_iff in C. destruct C as [C | C].
  - apply N.ltb_ge in C. left. intros E. rewrite E in C. cbn in C. lia.
  - destruct (more_loop_root m (N.to_nat m + length (pend s0)) s0) as [_ [_ [P _]]].
    fold s1 in P. destruct (peak s1) as [p |] eqn:PK; [| discriminate]. apply N.ltb_ge in C.
    right; left. exists p. split; [reflexivity | split; [congruence | exact C]].
Qed.

Lemma loop_pend m : forall fuel w, pend w <> [] -> pend (more_loop fuel w m) <> [].
Proof.
  induction fuel as [| f IH]; intros w P'; cbn; auto. destruct (more_cond w m); auto.
  apply IH. cbn. unfold insert. destruct (mem (pos w) (pend w)); [exact P' | discriminate].
Qed.

Lemma more_pend c s mp : pend s <> [] -> pend (sync_more c s mp) <> [].
Proof.
  intros P. unfold sync_more. destruct (synced s); auto.
  destruct (begin_pos_keep s) as [_ [_ [_ [_ [_ [K6 _]]]]]].
  destruct (at_limit c (begin_pos s)); [congruence |].
  apply loop_pend. congruence.
Qed.

Lemma more_keep c s mp : let s' := sync_more c s mp in
  synced s' = synced s /\ finish s' = finish s /\ peak s' = peak s.
Proof.
  unfold sync_more. destruct (synced s) eqn:SY; auto.
  destruct (begin_pos_keep s) as [K1 [K2 [K3 [K4 [K5 [K6 K7]]]]]].
  destruct (at_limit c (begin_pos s)); [repeat split; congruence |].
  destruct (more_loop_root (max_pending (begin_pos s) mp)
             (N.to_nat (max_pending (begin_pos s) mp) + length (pend (begin_pos s))) (begin_pos s)) as [_ [A [B [_ C]]]].
  repeat split; congruence.
Qed.

Lemma unsettled c s : inv c s -> pend s <> [] -> ~ settled (tr s).
Proof.
  intros V P S. apply P. destruct (pend s) as [| h l] eqn:E; auto. exfalso.
  pose proof (settled_flight _ _ _ _ _ (i_g _ _ V) S) as F.
  pose proof (g_pf _ _ _ _ _ (i_g _ _ V) h) as K. rewrite E, F in K. destruct K. left; reflexivity.
Qed.

Lemma update_progress c s e : inv c s ->
  let s' := update c s e in
  synced s' = true \/ ~ settled (tr s') \/ at_limit c s' = true
  \/ (exists p, peak s' = Some p /\ p <= pos s' /\ (e_now e - finish s' <= c_interval c / 2)%Z).
Proof.
  intros V. pose proof (inv_update c s e V) as V'. cbv zeta.
  destruct (pend (update c s e)) as [| x l] eqn:PE.
  2: { right; left. apply (unsettled c); [exact V' | congruence]. }
  unfold update in *. set (s0 := set_root s (N.min (root s) (e_back e))) in *.
  assert (V0 : inv c s0) by (apply inv_lower; exact V).
  set (s1 := if root s0 <? e_peak e then _ else s0) in *.
  assert (V1 : inv c s1) by (unfold s1; destruct (root s0 <? e_peak e); [apply inv_commit |]; exact V0).
  set (s2 := finish_sync c s1 (e_now e)) in *.
  assert (V2 : inv c s2) by (apply inv_finish; exact V1).
  destruct (synced s2) eqn:SY.
  { left. destruct (more_keep c s2 (e_mp e)) as [-> _]. exact SY. }
  assert (P2 : pend s2 = []).
  { destruct (pend s2) eqn:E; auto. exfalso. apply (more_pend c s2 (e_mp e)); congruence. }
  pose proof (g_nd _ _ _ _ _ (i_g _ _ V2)) as ND.
  destruct (more_progress c s2 (e_mp e) ND SY) as [K | [[p [K1 [K2 K3]]] | K]]; [congruence | | auto].
  right; right; right. exists p. split; [exact K1 |]. split; [exact K3 |].
  destruct (more_keep c s2 (e_mp e)) as [_ [-> _]].
  unfold s2, finish_sync in K2, SY, P2 |- *.
  destruct (synced s1) eqn:S1; [congruence |]. destruct (peak s1) as [q |] eqn:Q1; [| congruence].
  destruct (pend s1) as [| y m] eqn:R1; [| congruence].
  destruct (retry s1 <? c_retries c); [| discriminate].
  destruct (_ <? _)%Z eqn:Z; [discriminate |]. apply Z.ltb_ge in Z. exact Z.
Qed.

(** [quiet] by going through the record. *)
Definition settled_b (a : list ev) : bool :=
  forallb (fun e => match e with
    | EReq h | EAns h _ | EFail h => Nat.eqb (count (is_req h) a) (count (is_reply h) a)
    | _ => true end) a.
Lemma settled_b_ok a : settled_b a = true -> settled a.
Proof.
  intros B h. unfold settled_b in B. rewrite forallb_forall in B.
  destruct (filter (is_req h) a) as [| e l] eqn:E.
  - destruct (filter (is_reply h) a) as [| e l] eqn:E'; [unfold count; rewrite E, E'; reflexivity |].
    assert (I : In e (filter (is_reply h) a)) by (rewrite E'; left; reflexivity).
    apply filter_In in I. destruct I as [I K]. specialize (B e I).
    destruct e; cbn in K; try discriminate; apply N.eqb_eq in K; subst; apply Nat.eqb_eq in B; exact B.
  - assert (I : In e (filter (is_req h) a)) by (rewrite E; left; reflexivity).
    apply filter_In in I. destruct I as [I K]. specialize (B e I).
    destruct e; cbn in K; try discriminate; apply N.eqb_eq in K; subst; apply Nat.eqb_eq in B; exact B.
Qed.
Fixpoint quiet_b (x : list ev) : bool :=
  match x with
  | [] => true
  | e :: a => match e with EStart _ | ERetry _ => settled_b a | _ => true end && quiet_b a
  end.
Lemma quiet_b_ok x : quiet_b x = true -> quiet x.
Proof.
  intros Q b. revert x Q. induction b as [| g b IH]; intros x Q e a ->; cbn in Q; apply andb_true_iff in Q.
  - destruct e; auto; apply settled_b_ok, Q.
  - apply (IH (b ++ e :: a)); [apply Q | reflexivity].
Qed.
