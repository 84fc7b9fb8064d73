(** Proofs about the farmer *)
Require Import List Arith NArith ZArith Bool Lia Permutation.
From Verif Require Import PrsModel PrsProofs FrmModel FrmSpec.
Import ListNotations.
Open Scope N_scope.
Set Default Proof Using "Type".

Section MAPS.
  Context {V : Type}.
  Implicit Types l : list (N * V).
  Lemma get_put k c (v : V) l : get k (put c v l) = if c =? k then Some v else get k l.
  Proof.
    unfold put, get. cbn. destruct (N.eqb_spec c k) as [->|H]; [reflexivity|]. f_equal.
    assert (E : find (fun e => fst e =? k) (del c l) = find (fun e => fst e =? k) l); [|now rewrite E].
    induction l as [|[a b] r IH]; [easy|]. unfold del in *. cbn. destruct (N.eqb_spec a c) as [->|H1]; cbn.
    - destruct (N.eqb_spec c k); [easy|apply IH].
    - destruct (a =? k); [easy|apply IH].
  Qed.
  Lemma nodup_put c (v : V) l : NoDup (map fst l) -> NoDup (map fst (put c v l)).
  Proof. intros H. cbn. constructor; [rewrite key_del; now intros [_ A]|now apply nodup_filter_keys]. Qed.
  Lemma get_filter (p : N * V -> bool) k l : NoDup (map fst l) -> get k (filter p l) = match get k l with Some v => if p (k, v) then Some v else None | None => None end.
  Proof.
    intros H. destruct (get k l) as [v|] eqn:E.
    - apply get_in in E. destruct (p (k, v)) eqn:P.
      + apply in_get; [now apply nodup_filter_keys|]. now apply filter_In.
      + apply get_none. intros A. apply key_in in A. destruct A as [w A]. apply filter_In in A. destruct A as [A1 A2].
        rewrite (nodup_in k w v l H A1 E) in A2. congruence.
    - apply get_none in E. apply get_none. intros A. apply E. apply key_in in A. destruct A as [w A]. apply filter_In in A. now apply (in_key _ w).
  Qed.
End MAPS.

Lemma cnt_add k m c v l : cnt k (add_to m c v l) = if c =? k then (cnt c l + v) mod m else cnt k l.
Proof. unfold cnt at 1, add_to. rewrite get_put. destruct (N.eqb_spec c k) as [->|]; reflexivity. Qed.
Lemma u32_pos : u32 <> 0. Proof. easy. Qed.
Lemma u64_pos : u64 <> 0. Proof. easy. Qed.
Lemma addm m a b c : m <> 0 -> (((a mod m) + b) mod m + c) mod m = (a + (b + c)) mod m.
Proof. intros M. rewrite N.add_mod_idemp_l by easy. rewrite <- N.add_assoc, N.add_mod_idemp_l by easy. reflexivity. Qed.

Lemma cnt_fold m k e l : m <> 0 -> cnt k l < m -> cnt k (fold_left (fun l e => add_to m (fst e) (snd e) l) e l) = (cnt k l + under k (fun v => v) e) mod m.
Proof.
  intros M. revert l. induction e as [|[c v] r IH]; intros l L; cbn [fold_left].
  - unfold under. cbn. now rewrite N.add_0_r, N.mod_small.
  - rewrite IH by (rewrite cnt_add; destruct (N.eqb_spec (fst (c, v)) k) as [<-|]; [now apply N.mod_lt|easy]).
    rewrite cnt_add. unfold under. cbn [fst snd sum]. destruct (N.eqb_spec c k) as [->|]; [|now rewrite N.add_0_l].
    rewrite N.add_mod_idemp_l by easy. now rewrite N.add_assoc.
Qed.

(** What each event leaves alone *)
Definition same_but_url (t u : stats) : Prop := set_url 0 t = set_url 0 u.
Section RUN.
  Variables (hn : N -> N) (timeout : Z).
  Notation step := (step hn timeout).
  Lemma stats_set k c t f : stats_of k (set_stats c t f) = if c =? k then t else stats_of k f.
  Proof. unfold stats_of, set_stats. cbn [f_stats]. rewrite get_put. now destruct (c =? k). Qed.
  Lemma urls f (l : list (N * pool)) : let f' := fold_left (fun f e => match g_url (snd e) with
                          | Some u => if u =? 0 then f else if s_url (stats_of (g_contract (snd e)) f) =? u then f else set_stats (g_contract (snd e)) (set_url u (stats_of (g_contract (snd e)) f)) f
                          | None => f
                          end) l f in
    f_keys f' = f_keys f /\ f_addr f' = f_addr f /\ f_infos f' = f_infos f /\ forall c, same_but_url (stats_of c f') (stats_of c f).
  Proof.
    revert f. induction l as [|[k p] r IH]; intros f; [easy|]. cbn [fold_left snd].
    destruct (g_url p) as [u|]; [|apply IH]. destruct (u =? 0); [apply IH|]. destruct (s_url (stats_of (g_contract p) f) =? u); [apply IH|].
    specialize (IH (set_stats (g_contract p) (set_url u (stats_of (g_contract p) f)) f)). cbn zeta in IH. destruct IH as [A [B [C D]]].
    split; [now rewrite A|]. split; [now rewrite B|]. split; [now rewrite C|]. intros c. unfold same_but_url in *. rewrite D, stats_set.
    now destruct (N.eqb_spec (g_contract p) c) as [<-|].
  Qed.

  (** Keys *)
  Lemma keys_step f e : f_keys (step f e) = match snd e with Keys l => f_keys (add_keys l f) | _ => f_keys f end.
  Proof.
    destruct e as [t e]. unfold FrmModel.step. cbn [snd fst]. destruct e as [l|l| |v|c d|c d r]; try reflexivity.
    - unfold got_accounts. now destruct (f_addr f).
    - unfold got_info. cbn zeta. destruct (key_of_info hn v); rewrite (proj1 (urls _ _)); reflexivity.
    - unfold got_diff. now destruct (0 <? d).
  Qed.
  Lemma first_key_app k a b : first_key k (a ++ b) = match first_key k a with Some x => Some x | None => first_key k b end.
  Proof. induction a as [|[s p] r IH]; [easy|]. cbn. now destruct (p =? k). Qed.
  Lemma add_keys_get k l m : get k (fold_left (fun m (e : N * N) => match get (snd e) m with Some _ => m | None => (snd e, fst e) :: m end) l m) = match get k m with Some x => Some x | None => first_key k l end.
  Proof.
    revert m. induction l as [|[s p] r IH]; intros m; cbn [fold_left fst snd first_key]; [now destruct (get k m)|].
    rewrite IH. destruct (get p m) as [x|] eqn:E.
    - destruct (get k m) eqn:F; [easy|]. destruct (N.eqb_spec p k); [congruence|easy].
    - unfold get at 1. cbn [find fst]. destruct (N.eqb_spec p k) as [->|]; [now rewrite E|]. now fold (get k m).
  Qed.
  Lemma keys_run k l f : get k (f_keys (fold_left step l f)) = match get k (f_keys f) with Some x => Some x | None => first_key k (keys_given l) end.
  Proof.
    revert f. induction l as [|e l IH]; intros f; [cbn [fold_left keys_given first_key]; now destruct (get k (f_keys f))|]. cbn [fold_left]. rewrite IH, keys_step.
    destruct e as [t e]. cbn [snd]. destruct e as [l'|l'| |v|c d|c d r]; try reflexivity.
    unfold add_keys. cbn [f_keys]. rewrite add_keys_get. cbn [keys_given]. rewrite first_key_app. destruct (get k (f_keys f)); [easy|]. now destruct (first_key k l').
  Qed.

  (** The address *)
  Lemma addr_step f e : f_addr (step f e) = match snd e with Accounts l => f_addr (got_accounts l f) | _ => f_addr f end.
  Proof.
    destruct e as [t e]. unfold FrmModel.step. cbn [snd fst]. destruct e as [l|l| |v|c d|c d r]; try reflexivity.
    - unfold got_info. cbn zeta. destruct (key_of_info hn v); rewrite (proj1 (proj2 (urls _ _))); reflexivity.
    - unfold got_diff. now destruct (0 <? d).
  Qed.
  Lemma first_some_app a b : first_some (a ++ b) = match first_some a with Some x => Some x | None => first_some b end.
  Proof. induction a as [|[s|] r IH]; [easy|easy|]. exact IH. Qed.
  Lemma find_first l : match find (fun a : option N => match a with Some _ => true | None => false end) l with Some a => a | None => None end = first_some l.
  Proof. induction l as [|[a|] r IH]; [easy|easy|]. exact IH. Qed.
  Lemma addr_run l f : f_addr (fold_left step l f) = match f_addr f with Some x => Some x | None => first_some (accounts_given l) end.
  Proof.
    revert f. induction l as [|e l IH]; intros f; [cbn [fold_left accounts_given first_some]; now destruct (f_addr f)|]. cbn [fold_left]. rewrite IH, addr_step.
    destruct e as [t e]. cbn [snd]. destruct e as [l'|l'| |v|c d|c d r]; try reflexivity.
    unfold got_accounts. destruct (f_addr f) eqn:E; [now rewrite E|]. cbn [f_addr accounts_given]. rewrite find_first, first_some_app. now destruct (first_some l').
  Qed.

  (** The harvesters *)
  Lemma from_key h v : is_from hn h v = match key_of_info hn v with Some k => k =? h | None => false end.
  Proof. unfold is_from, key_of_info. destruct (i_id v); [easy|]. now destruct (i_name v). Qed.
  Lemma late t now : (0 <= timeout)%Z -> (timeout <? Z.quot (now - t) 1000000)%Z = (t + (timeout + 1) * 1000000 <=? now)%Z.
  Proof.
    intros T. destruct (Z.leb_spec (t + (timeout + 1) * 1000000) now) as [H|H].
    - apply Z.ltb_lt. rewrite Z.quot_div_nonneg by lia. apply Z.lt_le_trans with (timeout + 1)%Z; [lia|]. apply Z.div_le_lower_bound; lia.
    - apply Z.ltb_ge. destruct (Z.le_gt_cases t now) as [A|A].
      + rewrite Z.quot_div_nonneg by lia. apply Z.lt_succ_r. apply Z.div_lt_upper_bound; lia.
      + transitivity 0%Z; [|easy]. replace (now - t)%Z with (- (t - now))%Z by lia. rewrite Z.quot_opp_l by lia.
        enough (0 <= Z.quot (t - now) 1000000)%Z by lia. apply Z.quot_pos; lia.
  Qed.
  Lemma infos_step f e h : (0 <= timeout)%Z -> NoDup (map fst (f_infos f)) ->
    NoDup (map fst (f_infos (step f e))) /\ get h (f_infos (step f e)) = hear hn timeout h (get h (f_infos f)) e.
  Proof.
    intros T ND. destruct e as [t e]. unfold FrmModel.step, hear. cbn [snd fst]. destruct e as [l|l| |v|c d|c d r]; try (now split).
    - unfold got_accounts. now destruct (f_addr f).
    - unfold expire. cbn [f_infos]. split; [now apply nodup_filter_keys|]. rewrite get_filter by easy.
      destruct (get h (f_infos f)) as [[t' v]|]; [|easy]. cbn [snd fst]. rewrite late by easy. now destruct (t' + (timeout + 1) * 1000000 <=? t)%Z.
    - unfold got_info. cbn zeta. rewrite from_key. destruct (key_of_info hn v) as [k|]; rewrite (proj1 (proj2 (proj2 (urls _ _)))); cbn [f_infos].
      + split; [now apply nodup_put|]. rewrite get_put. now destruct (k =? h).
      + easy.
    - unfold got_diff. now destruct (0 <? d).
  Qed.
  Lemma infos_run l f h : (0 <= timeout)%Z -> NoDup (map fst (f_infos f)) ->
    NoDup (map fst (f_infos (fold_left step l f))) /\ get h (f_infos (fold_left step l f)) = fold_left (hear hn timeout h) l (get h (f_infos f)).
  Proof.
    intros T. revert f. induction l as [|e l IH]; intros f ND; [easy|]. cbn [fold_left].
    destruct (infos_step f e h T ND) as [A B]. destruct (IH _ A) as [C D]. split; [easy|]. now rewrite D, B.
  Qed.

  (** The statistics *)
  Definition keeps (f : farmer) (e : Z * event) (c : N) : Prop := same_but_url (stats_of c (step f e)) (stats_of c f).
  Lemma stats_step f e c : match snd e with
    | Diff c' d => stats_of c (step f e) = if (c' =? c) && negb (d =? 0) then set_diff d (stats_of c f) else stats_of c f
    | Response c' d r => stats_of c (step f e) = if c' =? c then stats_of c (got_response (fst e) c' d r f) else stats_of c f
    | _ => keeps f e c
    end.
  Proof.
    destruct e as [t e]. unfold keeps, FrmModel.step. cbn [snd fst]. destruct e as [l|l| |v|c' d|c' d r]; try reflexivity.
    - unfold got_accounts. now destruct (f_addr f).
    - unfold got_info. cbn zeta. destruct (key_of_info hn v) as [k|].
      + unfold same_but_url. etransitivity; [apply (proj2 (proj2 (proj2 (urls _ _))))|]. reflexivity.
      + apply (proj2 (proj2 (proj2 (urls _ _)))).
    - unfold got_diff. destruct (N.eqb_spec d 0) as [->|H]; [now rewrite andb_false_r|]. rewrite (proj2 (N.ltb_lt 0 d)) by lia. rewrite stats_set, andb_true_r.
      now destruct (N.eqb_spec c' c) as [<-|].
    - unfold got_response. rewrite !stats_set. now destruct (c' =? c).
  Qed.
  (** what the answers make of the counts *)
  Definition tally (t : stats) (a : N * option response) : stats :=
    match snd a with
    | Some (Valid p ms) => accepted (points a) ms t
    | _ => refused (match fault a with Some k => k | None => 0 end) (fst a) t
    end.
  Definition counts (t : stats) : N * N * N * list (N * N) := (s_valid t, s_failed t, s_total t, s_err t).
  Lemma counts_resp now c d r f : counts (stats_of c (got_response now c d r f)) = counts (tally (stats_of c f) (d, r)).
  Proof.
    unfold got_response. rewrite stats_set, N.eqb_refl. destruct r as [[p ms|k|]|]; [reflexivity| |reflexivity|reflexivity].
    unfold tally, fault. cbn [snd fst]. destruct k; reflexivity.
  Qed.
  Lemma tally_counts t u a : counts t = counts u -> counts (tally t a) = counts (tally u a).
  Proof. unfold counts. intros [= H1 H2 H3 H4]. unfold tally. destruct (snd a) as [[p ms|k|]|]; cbn; now rewrite ?H1, ?H2, ?H3, ?H4. Qed.
  Lemma tally_fold l t u : counts t = counts u -> counts (fold_left tally l t) = counts (fold_left tally l u).
  Proof. revert t u. induction l as [|a l IH]; intros t u H; [exact H|]. cbn [fold_left]. apply IH. now apply tally_counts. Qed.
  Lemma same_counts t u : same_but_url t u -> counts t = counts u /\ s_diff t = s_diff u.
  Proof. unfold same_but_url, set_url, counts. intros [= A1 A2 A3 A4 A5 A6 A7]. now rewrite A1, A2, A3, A4, A7. Qed.
  Lemma counts_run c l f : counts (stats_of c (fold_left step l f)) = counts (fold_left tally (answers c l) (stats_of c f)).
  Proof.
    revert f. induction l as [|e l IH]; intros f; [easy|]. cbn [fold_left]. rewrite IH. pose proof (stats_step f e c) as S.
    destruct e as [t e]. cbn [snd] in S. destruct e as [l'|l'| |v|c' d|c' d r]; cbn [answers]; try (now apply tally_fold, same_counts).
    - rewrite S. destruct ((c' =? c) && negb (d =? 0)); [|easy]. now apply tally_fold.
    - rewrite S. destruct (N.eqb_spec c' c) as [->|]; [|easy]. cbn [fold_left]. apply tally_fold. apply counts_resp.
  Qed.
  Lemma sdiff_run c l f : s_diff (stats_of c (fold_left step l f)) = last_diff c (s_diff (stats_of c f)) l.
  Proof.
    revert f. induction l as [|e l IH]; intros f; [easy|]. cbn [fold_left]. rewrite IH. pose proof (stats_step f e c) as S.
    destruct e as [t e]. cbn [snd] in S. destruct e as [l'|l'| |v|c' d|c' d r]; cbn [last_diff]; try (f_equal; now apply same_counts in S).
    - f_equal. rewrite S. now destruct ((c' =? c) && negb (d =? 0)).
    - f_equal. rewrite S. destruct (N.eqb_spec c' c) as [->|]; [|easy]. unfold got_response. rewrite stats_set, N.eqb_refl. destruct r as [[p ms|k|]|]; reflexivity.
  Qed.
End RUN.

Lemma count_cons {A} (p : A -> bool) x l : count p (x :: l) = (if p x then 1 else 0) + count p l.
Proof. unfold count. cbn. destruct (p x); cbn [length]; lia. Qed.
Lemma tally_ok l t : s_valid t < u64 -> s_failed t < u64 -> s_total t < u32 -> (forall k, cnt k (s_err t) < u32) ->
  let t' := fold_left tally l t in
  s_valid t' = (s_valid t + sum points l) mod u64 /\ s_failed t' = (s_failed t + sum lost l) mod u64 /\ s_total t' = (s_total t + count is_ok l) mod u32 /\
  forall k, cnt k (s_err t') = (cnt k (s_err t) + count (is_fault k) l) mod u32.
Proof.
  revert t. induction l as [|a l IH]; intros t H1 H2 H3 H4; cbn zeta; cbn [fold_left sum].
  - unfold count. cbn [filter length N.of_nat]. rewrite !N.add_0_r, !N.mod_small by easy. repeat (split; [easy|]). intros k. rewrite N.add_0_r, N.mod_small; easy.
  - assert (G : s_valid (tally t a) = (s_valid t + points a) mod u64 /\ s_failed (tally t a) = (s_failed t + lost a) mod u64 /\
      s_total (tally t a) = (s_total t + (if is_ok a then 1 else 0)) mod u32 /\ forall k, cnt k (s_err (tally t a)) = (cnt k (s_err t) + (if is_fault k a then 1 else 0)) mod u32).
    { assert (B : forall c, tally t a = refused c (fst a) t -> fault a = Some c -> points a = 0 -> is_ok a = false ->
        s_valid (tally t a) = (s_valid t + points a) mod u64 /\ s_failed (tally t a) = (s_failed t + lost a) mod u64 /\
        s_total (tally t a) = (s_total t + (if is_ok a then 1 else 0)) mod u32 /\ forall k, cnt k (s_err (tally t a)) = (cnt k (s_err t) + (if is_fault k a then 1 else 0)) mod u32).
      { intros c E F P O. unfold lost, is_fault. rewrite E, F, P, O. unfold refused. cbn [s_valid s_failed s_total s_err]. rewrite !N.add_0_r, !(N.mod_small (s_valid t)), !(N.mod_small (s_total t)) by easy.
        repeat (split; [easy|]). intros k. rewrite cnt_add. destruct (N.eqb_spec c k) as [->|]; [easy|]. rewrite N.add_0_r, N.mod_small; easy. }
      destruct a as [d [[p ms|k|]|]].
      - unfold tally, lost, is_fault. cbn [snd fault is_ok accepted s_valid s_failed s_total s_err]. rewrite !N.add_0_r, !(N.mod_small (s_failed t)) by easy.
        repeat (split; [easy|]). intros k. rewrite N.add_0_r, N.mod_small; easy.
      - destruct k as [|k]; [apply (B 16)|apply (B (Npos k))]; reflexivity.
      - apply (B 16); reflexivity.
      - apply (B 16); reflexivity. }
    destruct G as [G1 [G2 [G3 G4]]].
    destruct (IH (tally t a)) as [I1 [I2 [I3 I4]]];
      [rewrite G1; now apply N.mod_lt|rewrite G2; now apply N.mod_lt|rewrite G3; now apply N.mod_lt|intros k; rewrite G4; now apply N.mod_lt|].
    rewrite I1, I2, I3, G1, G2, G3, count_cons, !N.add_mod_idemp_l, !N.add_assoc by easy. repeat (split; [easy|]).
    intros k. rewrite I4, G4, count_cons, N.add_mod_idemp_l, N.add_assoc; easy.
Qed.

(** The report *)
Lemma sum_perm {A} (f : A -> N) l m : Permutation l m -> sum f l = sum f m.
Proof. induction 1; cbn; lia. Qed.
Lemma sum_map {A B} (g : A -> B) (f : B -> N) l : sum f (map g l) = sum (fun x => f (g x)) l.
Proof. induction l; cbn; congruence. Qed.
Lemma sum_ext {A} (f g : A -> N) l : (forall x, In x l -> f x = g x) -> sum f l = sum g l.
Proof. induction l as [|x l IH]; intros H; [easy|]. cbn. rewrite (H x), IH; [easy| |now left]. intros y I. apply H. now right. Qed.

Definition entries (l : list (N * (Z * info))) : list info := map (fun e => snd (snd e)) l.
Definition nothing : report := mk_report 0 0 0 [] [] [] [] None.
Definition gather (l : list info) (r : report) : report := fold_left (fun r v => add_info v r) l r.
Lemma gather_entries l r : fold_left (fun r (e : N * (Z * info)) => add_info (snd (snd e)) r) l r = gather (entries l) r.
Proof. revert r. induction l as [|e l IH]; intros r; [easy|]. apply IH. Qed.

Definition ncount (k : N) (l : list (N * (N * N))) : N * N := match get k l with Some p => p | None => (0, 0) end.
Definition pcount (k : N) (l : list (N * pool)) : N := match get k l with Some p => g_count p | None => 0 end.
Lemma ncount_add k c b e l : ncount k (add_name c b e l) = if c =? k then ((fst (ncount c l) + b) mod u64, (snd (ncount c l) + e) mod u64) else ncount k l.
Proof.
  unfold ncount at 1, add_name. unfold ncount at 1 2. destruct (get c l) as [[x y]|] eqn:E; rewrite get_put; destruct (N.eqb_spec c k) as [->|]; reflexivity.
Qed.
Lemma pcount_add k c p l : pcount k (add_pool c p l) = if c =? k then (g_count p + pcount c l) mod u32 else pcount k l.
Proof. unfold pcount at 1, add_pool. rewrite get_put. now destruct (c =? k). Qed.
Lemma pcount_fold k e l : pcount k l < u32 -> pcount k (fold_left (fun l e => add_pool (fst e) (snd e) l) e l) = (pcount k l + under k g_count e) mod u32.
Proof.
  revert l. induction e as [|[c p] r IH]; intros l L; cbn [fold_left].
  - unfold under. cbn. now rewrite N.add_0_r, N.mod_small.
  - rewrite IH by (rewrite pcount_add; destruct (N.eqb_spec (fst (c, p)) k); [now apply N.mod_lt|easy]).
    rewrite pcount_add. unfold under. cbn [fst snd sum]. destruct (N.eqb_spec c k) as [->|]; [|now rewrite N.add_0_l].
    rewrite N.add_mod_idemp_l, (N.add_comm (g_count p)), N.add_assoc by easy. reflexivity.
Qed.

Record sums (r r' : report) (l : list info) : Prop := {
  sm_b : r_bytes r' = (r_bytes r + sum i_bytes l) mod u64;
  sm_e : r_eff r' = (r_eff r + sum i_eff l) mod u64;
  sm_a : r_balance r' = (r_balance r + sum i_balance l) mod u64;
  sm_p : forall k, cnt k (r_plots r') = (cnt k (r_plots r) + sum (fun v => under k (fun x => x) (i_plots v)) l) mod u32;
  sm_n : forall n, ncount n (r_names r') = ((fst (ncount n (r_names r)) + sum (bytes_of n i_bytes) l) mod u64, (snd (ncount n (r_names r)) + sum (bytes_of n i_eff) l) mod u64);
  sm_g : forall k, pcount k (r_pools r') = (pcount k (r_pools r) + sum (fun v => under k g_count (i_pools v)) l) mod u32 }.
Record small (r : report) : Prop := {
  sl_b : r_bytes r < u64; sl_e : r_eff r < u64; sl_a : r_balance r < u64; sl_p : forall k, cnt k (r_plots r) < u32;
  sl_n : forall n, fst (ncount n (r_names r)) < u64 /\ snd (ncount n (r_names r)) < u64; sl_g : forall k, pcount k (r_pools r) < u32 }.
Lemma gather_sums l r : small r -> sums r (gather l r) l.
Proof.
  revert r. induction l as [|v l IH]; intros r S.
  - destruct S. split; cbn; rewrite ?N.add_0_r, ?N.mod_small by easy; try easy.
    + intros k. now rewrite N.add_0_r, N.mod_small.
    + intros n. rewrite !N.add_0_r, !N.mod_small by apply sl_n0. apply surjective_pairing.
    + intros k. now rewrite N.add_0_r, N.mod_small.
  - assert (S1 : sums r (add_info v r) [v]).
    { destruct S. split; cbn [add_info r_bytes r_eff r_balance r_plots r_names r_pools sum]; rewrite ?N.add_0_r; try easy.
      - intros k. rewrite cnt_fold by easy. now rewrite N.add_0_r.
      - intros n. rewrite !N.add_0_r. unfold bytes_of. destruct (i_name v) as [m|].
        + rewrite ncount_add. destruct (N.eqb_spec m n) as [->|]; [easy|]. rewrite !N.add_0_r, !N.mod_small by apply sl_n0. apply surjective_pairing.
        + rewrite !N.add_0_r, !N.mod_small by apply sl_n0. apply surjective_pairing.
      - intros k. rewrite pcount_fold by easy. now rewrite N.add_0_r. }
    assert (S2 : small (add_info v r)).
    { destruct S1. split; [rewrite sm_b0|rewrite sm_e0|rewrite sm_a0|intros k; rewrite sm_p0|intros n; rewrite sm_n0; split|intros k; rewrite sm_g0]; cbn [fst snd]; now apply N.mod_lt. }
    specialize (IH _ S2). change (gather (v :: l) r) with (gather l (add_info v r)). destruct S1, IH. split.
    + rewrite sm_b1, sm_b0. cbn [sum]. rewrite N.add_0_r, N.add_mod_idemp_l, N.add_assoc; easy.
    + rewrite sm_e1, sm_e0. cbn [sum]. rewrite N.add_0_r, N.add_mod_idemp_l, N.add_assoc; easy.
    + rewrite sm_a1, sm_a0. cbn [sum]. rewrite N.add_0_r, N.add_mod_idemp_l, N.add_assoc; easy.
    + intros k. rewrite sm_p1, sm_p0. cbn [sum]. rewrite N.add_0_r, N.add_mod_idemp_l, N.add_assoc; easy.
    + intros n. rewrite sm_n1, sm_n0. cbn [sum fst snd]. rewrite !N.add_0_r, !N.add_mod_idemp_l, !N.add_assoc; easy.
    + intros k. rewrite sm_g1, sm_g0. cbn [sum]. rewrite N.add_0_r, N.add_mod_idemp_l, N.add_assoc; easy.
Qed.
Lemma small_nothing : small nothing.
Proof. now split. Qed.

(** Sums over the entries are sums over the harvesters *)
Lemma sum_current {A} (P : N -> option A) (g : A -> N) (l : list (N * A)) hs :
  NoDup (map fst l) -> NoDup hs -> (forall h, P h = get h l) -> (forall h, In h hs <-> P h <> None) ->
  sum g (map snd l) = sum (fun h => match P h with Some v => g v | None => 0 end) hs.
Proof.
  intros N1 N2 E K. rewrite (sum_perm _ hs (map fst l)).
  - rewrite !sum_map. apply sum_ext. intros [h v] I. cbn [fst snd]. rewrite E, (in_get h v); easy.
  - apply NoDup_Permutation; [easy|easy|]. intros h. rewrite K, E. rewrite get_none. split.
    + intros H. destruct (in_dec N.eq_dec h (map fst l)); easy.
    + tauto.
Qed.

(** which entries of pools the report has, and what they say *)
Lemma pool_get k e l : get k (fold_left (fun l e => add_pool (fst e) (snd e) l) e l) = None <-> get k l = None /\ ~ In k (map fst e).
Proof.
  revert l. induction e as [|[c p] r IH]; intros l; cbn [fold_left map fst In]; [tauto|]. rewrite IH. unfold add_pool. cbn [snd]. rewrite get_put.
  destruct (N.eqb_spec c k) as [->|H]; split; intros [A B]; try easy; try (split; tauto).
Qed.
Lemma pool_from k e l p : get k (fold_left (fun l e => add_pool (fst e) (snd e) l) e l) = Some p ->
  (exists q, In (k, q) e /\ g_rest p = g_rest q /\ g_url p = g_url q /\ g_contract p = g_contract q) \/ get k l = Some p.
Proof.
  revert l. induction e as [|[c q] r IH]; intros l; cbn [fold_left fst snd]; [tauto|]. intros H. apply IH in H. destruct H as [[x [H1 H2]]|H].
  - left. exists x. split; [now right|easy].
  - unfold add_pool in H. rewrite get_put in H. destruct (N.eqb_spec c k) as [->|]; [|now right]. injection H as <-. left. exists q. split; [now left|easy].
Qed.
Lemma gather_pool k l r : get k (r_pools (gather l r)) = None <-> get k (r_pools r) = None /\ forall v, In v l -> ~ In k (map fst (i_pools v)).
Proof.
  revert r. induction l as [|v l IH]; intros r; cbn [gather fold_left]; [split; [now split|now intros [A _]]|]. fold (gather l (add_info v r)). rewrite IH. cbn [add_info r_pools].
  rewrite pool_get. split.
  - intros [[A B] C]. split; [easy|]. intros w [<-|I]; [easy|now apply C].
  - intros [A B]. split; [split; [easy|apply B; now left]|]. intros w I. apply B. now right.
Qed.
Lemma gather_pool_from k l r p : get k (r_pools (gather l r)) = Some p ->
  (exists v q, In v l /\ In (k, q) (i_pools v) /\ g_rest p = g_rest q /\ g_url p = g_url q /\ g_contract p = g_contract q) \/ get k (r_pools r) = Some p.
Proof.
  revert r. induction l as [|v l IH]; intros r H; [now right|]. apply IH in H. destruct H as [[w [q [H1 H2]]]|H].
  - left. exists w, q. split; [now right|easy].
  - cbn [add_info r_pools] in H. apply pool_from in H. destruct H as [[q H]|H]; [|now right]. left. exists v, q. split; [now left|easy].
Qed.
Lemma get_map {A B} (g : N -> A -> B) k (l : list (N * A)) : get k (map (fun e => (fst e, g (fst e) (snd e))) l) = option_map (g k) (get k l).
Proof.
  unfold get. induction l as [|[a b] r IH]; [easy|]. cbn. destruct (N.eqb_spec a k) as [->|]; [easy|apply IH].
Qed.
