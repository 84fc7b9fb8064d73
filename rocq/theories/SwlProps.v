(** C128: the list of swaps *)
Require Import List Arith NArith Bool Lia Sorted Permutation.
From Verif Require Import SwlModel SwlSpec.
Import ListNotations.
Open Scope N_scope.

(** entries of the tables for a chain *)
Fixpoint tickets (h n : N) (b : block) : list ((N * N) * (N * deploy)) :=
  match b with [] => [] | tx :: r => ((h, n), tx) :: tickets h (match snd tx with Nothing => n | _ => n + 1 end) r end.
Fixpoint places (h : N) (c : list block) : list ((N * N) * (N * deploy)) := match c with [] => [] | b :: r => tickets h 0 b ++ places (h + 1) r end.
Definition idx (e : (N * N) * (N * deploy)) : list (key * (N * N) * N) :=
  match snd (snd e) with Swap t c => [(KToken t, fst e, fst (snd e)); (KCurrency c, fst e, fst (snd e)); (KBoth t c, fst e, fst (snd e))] | _ => [] end.
Definition lg (e : (N * N) * (N * deploy)) : list ((N * N) * N) := match snd (snd e) with Swap _ _ => [(fst e, fst (snd e))] | _ => [] end.
Lemma tickets_h h b : forall n e, In e (tickets h n b) -> fst (fst e) = h.
Proof. induction b as [|tx b IH]; intros n e; cbn; [easy|]. intros [<-|H]; [easy|now apply IH in H]. Qed.
Lemma tickets_tx h b : forall n, map snd (tickets h n b) = b.
Proof. induction b as [|tx b IH]; intros n; cbn; [easy|]. now rewrite IH. Qed.
Lemma places_app c : forall h d, places h (c ++ d) = places h c ++ places (h + N.of_nat (length c)) d.
Proof. induction c as [|b c IH]; intros h d; cbn [places app length]; [now rewrite N.add_0_r|]. rewrite IH, <- app_assoc. do 3 f_equal. lia. Qed.
Lemma places_h c : forall h e, In e (places h c) -> h <= fst (fst e) < h + N.of_nat (length c).
Proof. induction c as [|b c IH]; intros h e; cbn [places length]; [easy|]. intros H. apply in_app_or in H. destruct H as [H|H]; [apply tickets_h in H; lia|apply IH in H; lia]. Qed.
Lemma places_tx c : forall h, map snd (places h c) = concat c.
Proof. induction c as [|b c IH]; intros h; cbn; [easy|]. now rewrite map_app, tickets_tx, IH. Qed.

Definition holds (c : list block) (s : st) : Prop := index s = flat_map idx (places 0 c) /\ clog s = flat_map lg (places 0 c) /\ height s = N.of_nat (length c).
Lemma apply_txs h b : forall s n, exists m, fold_left (apply_tx h) b (s, n) = (mk_st (index s ++ flat_map idx (tickets h n b)) (clog s ++ flat_map lg (tickets h n b)) (height s), m).
Proof.
  induction b as [|[i d] b IH]; intros s n; cbn [fold_left tickets flat_map].
  - exists n. rewrite !app_nil_r. now destruct s.
  - unfold apply_tx at 2. cbn [snd fst]. destruct d as [t c| |]; cbn [snd]; match goal with |- context [fold_left _ b (?u, ?k)] => destruct (IH u k) as [m E] end; exists m; rewrite E; unfold idx at 2, lg at 2; cbn [index clog height fst snd app]; [|reflexivity|reflexivity].
    now rewrite <- !app_assoc.
Qed.
Lemma filter_flat {A B} (f : A -> list B) (p : B -> bool) (q : A -> bool) l : (forall a b, In a l -> In b (f a) -> p b = q a) -> filter p (flat_map f l) = flat_map f (filter q l).
Proof.
  induction l as [|a l IH]; intros H; [easy|]. cbn [flat_map filter]. rewrite filter_app, IH by (intros x y X Y; apply H; [now right|easy]).
  assert (E : filter p (f a) = if q a then f a else []).
  { specialize (H a). assert (H' : forall b, In b (f a) -> p b = q a) by (intros b; apply H; now left). clear - H'. induction (f a) as [|b r IH]; cbn; [now destruct (q a)|]. rewrite (H' b) by (now left). rewrite IH by (intros x X; apply H'; now right). now destruct (q a). }
  rewrite E. now destruct (q a).
Qed.
Lemma idx_place e x : In x (idx e) -> snd (fst x) = fst e.
Proof. unfold idx. destruct (snd (snd e)); cbn; [|easy|easy]. intros [<-|[<-|[<-|[]]]]; easy. Qed.
Lemma lg_place e x : In x (lg e) -> fst x = fst e.
Proof. unfold lg. destruct (snd (snd e)); cbn; [|easy|easy]. intros [<-|[]]; easy. Qed.
Lemma filter_all {A} (p : A -> bool) l : (forall x, In x l -> p x = true) -> filter p l = l.
Proof. induction l as [|x l IH]; intros H; [easy|]. cbn. rewrite (H x) by (now left). f_equal. apply IH. intros y Y. apply H. now right. Qed.
Lemma filter_no {A} (p : A -> bool) l : (forall x, In x l -> p x = false) -> filter p l = [].
Proof. induction l as [|x l IH]; intros H; [easy|]. cbn. rewrite (H x) by (now left). apply IH. intros y Y. apply H. now right. Qed.
Lemma places_low c h : filter (fun e => fst (fst e) <? h) (places 0 c) = places 0 (firstn (N.to_nat h) c).
Proof.
  rewrite <- (firstn_skipn (N.to_nat h) c) at 1. rewrite places_app, filter_app. rewrite filter_all, filter_no; [apply app_nil_r| |].
  - intros x X. destruct (Nat.le_gt_cases (length c) (N.to_nat h)) as [L|L]; [rewrite (skipn_all2 c L) in X; easy|]. apply places_h in X. rewrite firstn_length in X. apply N.ltb_ge. lia.
  - intros x X. apply places_h in X. rewrite firstn_length in X. apply N.ltb_lt. lia.
Qed.
Lemma places_high c h : filter (fun e => h <=? fst (fst e)) (places 0 c) = places h (skipn (N.to_nat h) c).
Proof.
  rewrite <- (firstn_skipn (N.to_nat h) c) at 1. rewrite places_app, filter_app. rewrite filter_no; [cbn [app]|intros x X; apply places_h in X; rewrite firstn_length in X; apply N.leb_gt; lia].
  destruct (Nat.le_gt_cases (length c) (N.to_nat h)) as [L|L]; [rewrite (skipn_all2 c L); easy|]. rewrite firstn_length, Nat.min_l, N2Nat.id by lia. cbn [N.add]. apply filter_all. intros x X. apply places_h in X. apply N.leb_le. lia.
Qed.
Lemma run_holds l : holds (chain_of l) (run l).
Proof.
  unfold run, chain_of. assert (G : forall c s, holds c s -> holds (fold_left (fun c o => match o with Apply b => c ++ [b] | Revert h => firstn (N.to_nat h) c end) l c) (fold_left step l s)); [|now apply G].
  induction l as [|o l IH]; intros c s H; [exact H|]. cbn [fold_left]. apply IH. destruct H as [H1 [H2 H3]]. destruct o as [b|h]; cbn [step].
  - unfold apply. destruct (apply_txs (height s) b s 0) as [m ->]. cbn [index clog]. unfold holds. cbn [index clog height]. rewrite places_app, !flat_map_app, H1, H2, H3. cbn [places N.add]. rewrite app_nil_r, app_length. cbn [length]. repeat split. lia.
  - unfold revert. destruct (N.ltb_spec h (height s)) as [L|L].
    + unfold holds. cbn [index clog height]. rewrite H1, H2. rewrite (filter_flat idx _ (fun e => fst (fst e) <? h)) by (intros a x _ X; now rewrite (idx_place a x X)). rewrite (filter_flat lg _ (fun e => fst (fst e) <? h)) by (intros a x _ X; now rewrite (lg_place a x X)).
      rewrite places_low, firstn_length. repeat split. lia.
    + assert (E : firstn (N.to_nat h) c = c) by (apply firstn_all2; lia). rewrite E. now split.
Qed.

Definition wants (token currency : option N) := fun e : (N * N) * (N * deploy) => wanted token currency (snd (snd e)).
Lemma by_key k token currency since c : (forall e, map snd (filter (fun x => key_eqb (fst (fst x)) k) (idx e)) = if wants token currency e then [fst (snd e)] else []) ->
  map snd (filter (fun e => key_eqb (fst (fst e)) k && (since <=? fst (snd (fst e)))) (flat_map idx (places 0 c))) = swaps_in c since token currency.
Proof.
  intros H. assert (E : filter (fun e : key * (N * N) * N => key_eqb (fst (fst e)) k && (since <=? fst (snd (fst e)))) (flat_map idx (places 0 c)) = filter (fun e => key_eqb (fst (fst e)) k) (filter (fun e => since <=? fst (snd (fst e))) (flat_map idx (places 0 c)))).
  { induction (flat_map idx (places 0 c)) as [|x r IH]; [easy|]. cbn. rewrite IH. destruct (since <=? _); cbn; [now rewrite andb_true_r|now rewrite andb_false_r]. }
  rewrite E. rewrite (filter_flat idx _ (fun e => since <=? fst (fst e))) by (intros a x _ X; now rewrite (idx_place a x X)). rewrite places_high. unfold swaps_in. rewrite <- (places_tx (skipn (N.to_nat since) c) since).
  clear E. induction (places since (skipn (N.to_nat since) c)) as [|e r IH]; [easy|]. cbn [flat_map map filter]. rewrite filter_app, map_app, H, IH. unfold wants. now destruct (wanted token currency (snd (snd e))).
Qed.
(** The swaps that are found are those of the chain, whatever blocks were reverted: all with this token and this currency from this height on, the oldest first, up to the limit *)
Theorem C128_found : forall l since token currency limit, find_swaps (run l) since token currency limit = take limit (swaps_in (chain_of l) since token currency).
Proof.
  intros l since token currency limit. destruct (run_holds l) as [H1 [H2 _]]. unfold find_swaps. rewrite H1, H2.
  destruct token as [t|], currency as [c|]; f_equal.
  - apply by_key. intros [p [i d]]. unfold idx, wants, wanted. cbn [snd fst]. destruct d as [a b| |]; [|easy|easy]. cbn. now destruct ((a =? t) && (b =? c)).
  - apply by_key. intros [p [i d]]. unfold idx, wants, wanted. cbn [snd fst]. destruct d as [a b| |]; [|easy|easy]. cbn. rewrite andb_true_r. now destruct (a =? t).
  - apply by_key. intros [p [i d]]. unfold idx, wants, wanted. cbn [snd fst]. destruct d as [a b| |]; [|easy|easy]. cbn. now destruct (b =? c).
  - rewrite (filter_flat lg _ (fun e => since <=? fst (fst e))) by (intros a x _ X; now rewrite (lg_place a x X)). rewrite places_high. unfold swaps_in. rewrite <- (places_tx (skipn (N.to_nat since) (chain_of l)) since).
    induction (places since (skipn (N.to_nat since) (chain_of l))) as [|[p [i d]] r IH]; [easy|]. cbn [flat_map map filter snd]. rewrite map_app, IH. unfold lg, wanted. cbn [snd fst]. now destruct d.
Qed.
Print Assumptions C128_found.

Definition dep (e : (N * N) * (N * deploy)) : bool := match snd (snd e) with Nothing => false | _ => true end.
Lemma tickets_asc h b : forall n, StronglySorted (fun x y => before (fst x) (fst y)) (filter dep (tickets h n b)) /\ forall e, In e (filter dep (tickets h n b)) -> n <= snd (fst e).
Proof.
  induction b as [|[i d] b IH]; intros n; cbn [tickets filter]; [split; [constructor|easy]|]. destruct (IH (match snd (i, d) with Nothing => n | _ => n + 1 end)) as [S L]. unfold dep at 1 3. cbn [snd] in *. destruct d; cbn [snd]; try (split; [exact S|intros e E; apply L in E; lia]);
    (split; [constructor; [exact S|]; rewrite Forall_forall; intros e E; right; pose proof (L e E); apply filter_In in E; destruct E as [E _]; apply tickets_h in E; cbn [fst snd]; split; [congruence|lia]|intros e [<-|E]; [cbn; lia|apply L in E; lia]]).
Qed.
Lemma ss_app {A} (R : A -> A -> Prop) l m : StronglySorted R l -> StronglySorted R m -> (forall x y, In x l -> In y m -> R x y) -> StronglySorted R (l ++ m).
Proof.
  induction l as [|x l IH]; intros SL SM H; [exact SM|]. apply StronglySorted_inv in SL. destruct SL as [SL F]. cbn. constructor; [apply IH; [exact SL|exact SM|]; intros a b Ha Hb; apply H; [now right|exact Hb]|].
  rewrite Forall_forall in *. intros y Y. apply in_app_or in Y. destruct Y as [Y|Y]; [now apply F|]. apply H; [now left|exact Y].
Qed.
Lemma places_asc c : forall h, StronglySorted (fun x y => before (fst x) (fst y)) (filter dep (places h c)).
Proof.
  induction c as [|b c IH]; intros h; cbn [places]; [constructor|]. rewrite filter_app. apply ss_app; [apply tickets_asc|apply IH|]. intros x y X Y. apply filter_In in X, Y. destruct X as [X _], Y as [Y _]. apply tickets_h in X. apply places_h in Y. left. lia.
Qed.
Lemma ss_flat {X} (g : (N * N) * (N * deploy) -> list X) (pl : X -> N * N) l : (forall e, (length (g e) <= 1)%nat) -> (forall e x, In x (g e) -> pl x = fst e /\ dep e = true) ->
  StronglySorted (fun x y => before (fst x) (fst y)) (filter dep l) -> StronglySorted (fun x y => before (pl x) (pl y)) (flat_map g l).
Proof.
  intros L P. induction l as [|e l IH]; intros S; cbn [flat_map filter] in *; [constructor|]. destruct (g e) as [|x [|y r]] eqn:G.
  - apply IH. destruct (dep e); [now apply StronglySorted_inv in S|exact S].
  - destruct (P e x) as [P1 P2]; [rewrite G; now left|]. rewrite P2 in S. apply StronglySorted_inv in S. destruct S as [S F]. cbn [app]. constructor; [now apply IH|]. rewrite Forall_forall in *. intros y Y. apply in_flat_map in Y. destruct Y as [e' [E1 E2]]. destruct (P e' y E2) as [Q1 Q2]. rewrite P1, Q1. apply F. now apply filter_In.
  - specialize (L e). rewrite G in L. cbn in L. lia.
Qed.
(** No entry of the index takes the place of another, and their places are those in the chain: so they are read in this order *)
Theorem C128_places : forall l k,
  StronglySorted (fun x y => before (snd (fst x)) (snd (fst y))) (filter (fun e => key_eqb (fst (fst e)) k) (index (run l))) /\
  StronglySorted (fun x y => before (fst x) (fst y)) (clog (run l)).
Proof.
  intros l k. destruct (run_holds l) as [H1 [H2 _]]. rewrite H1, H2. split.
  - assert (E : filter (fun e => key_eqb (fst (fst e)) k) (flat_map idx (places 0 (chain_of l))) = flat_map (fun e => filter (fun x => key_eqb (fst (fst x)) k) (idx e)) (places 0 (chain_of l))).
    { clear H1 H2. induction (places 0 (chain_of l)) as [|e r IH]; [easy|]. cbn [flat_map]. rewrite filter_app, IH. reflexivity. }
    rewrite E. apply (ss_flat _ (fun x : key * (N * N) * N => snd (fst x))); [| |apply places_asc].
    + intros [p [i d]]. unfold idx. cbn [snd fst]. destruct d as [t c| |]; [|cbn; lia|cbn; lia]. cbn [filter fst]. destruct k as [x|x|x y]; cbn [key_eqb]; [destruct (t =? x)|destruct (c =? x)|destruct ((t =? x) && (c =? y))]; cbn; lia.
    + intros e x X. apply filter_In in X. destruct X as [X _]. split; [now apply idx_place|]. unfold idx in X. unfold dep. now destruct (snd (snd e)).
  - apply (ss_flat lg (fun x : (N * N) * N => fst x)); [| |apply places_asc].
    + intros [p [i d]]. unfold lg. cbn [snd fst]. destruct d; cbn; lia.
    + intros e x X. split; [now apply lg_place|]. unfold lg in X. unfold dep. now destruct (snd (snd e)).
Qed.
Print Assumptions C128_places.

Lemma insert_perm f x l : Permutation (insert f x l) (x :: l).
Proof. induction l as [|y l IH]; cbn; [easy|]. destruct (f y <? f x); [easy|]. rewrite IH. apply perm_swap. Qed.
Lemma sort_perm f l : Permutation (sort f l) l.
Proof. induction l as [|x l IH]; cbn; [easy|]. rewrite insert_perm. now constructor. Qed.
Lemma insert_sorted f x l : StronglySorted (fun a b => f b <= f a) l -> StronglySorted (fun a b => f b <= f a) (insert f x l).
Proof.
  induction l as [|y r IH]; intros S; cbn; [repeat constructor|]. pose proof S as S0. apply StronglySorted_inv in S. destruct S as [S F]. destruct (N.ltb_spec (f y) (f x)) as [L|L].
  - constructor; [exact S0|]. rewrite Forall_forall in *. intros z [<-|Z]; [lia|]. apply F in Z. lia.
  - constructor; [now apply IH|]. rewrite Forall_forall in *. intros z Z. apply (Permutation_in _ (insert_perm f x r)) in Z. destruct Z as [<-|Z]; [exact L|now apply F].
Qed.
Lemma sort_sorted f l : StronglySorted (fun a b => f b <= f a) (sort f l).
Proof. induction l as [|x l IH]; [constructor|]. change (sort f (x :: l)) with (insert f x (sort f l)). now apply insert_sorted. Qed.
(** What is listed are these swaps, those with most of the token (or of the currency) first *)
Theorem C128_listed : forall balance rank l since token currency limit,
  let r := get_swaps balance rank (run l) since token currency limit in
  Permutation r (take limit (swaps_in (chain_of l) since token currency)) /\
  StronglySorted (fun a b => match token, currency with Some _, _ => balance 0%nat b <= balance 0%nat a | None, Some _ => balance 1%nat b <= balance 1%nat a | None, None => rank b <= rank a end) r.
Proof.
  intros balance rank l since token currency limit r. unfold r, get_swaps. rewrite C128_found. destruct token as [t|], currency as [c|]; (split; [apply sort_perm|apply sort_sorted]).
Qed.
Print Assumptions C128_listed.

(** With a limit the oldest are taken before they are ordered: the one with most liquidity may not be listed *)
Theorem C128_best_refuted : exists balance rank l token limit best, In best (swaps_in (chain_of l) 0 (Some token) None) /\
  (forall x, In x (swaps_in (chain_of l) 0 (Some token) None) -> balance 0%nat x <= balance 0%nat best) /\ (0 < limit)%nat /\ ~ In best (get_swaps balance rank (run l) 0 (Some token) None (Some limit)).
Proof.
  exists (fun _ x => x), (fun x => x), [Apply [(10, Swap 1 2); (20, Swap 1 3)]], 1, 1%nat, 20. repeat split.
  - cbn. tauto.
  - intros x H. vm_compute in H. destruct H as [<-|[<-|[]]]; vm_compute; discriminate.
  - lia.
  - vm_compute. intros [H|[]]. discriminate.
Qed.
Print Assumptions C128_best_refuted.

(** Cases *)
Definition hist : list op := [Apply [(10, Swap 1 2); (11, Other); (12, Nothing)]; Apply [(13, Swap 1 3)]; Revert 1; Apply [(14, Swap 1 3); (15, Swap 4 2)]; Apply []; Apply [(16, Swap 1 2)]].
Example ex_hist : find_swaps (run hist) 0 (Some 1) None None = [10; 14; 16] /\ find_swaps (run hist) 1 None (Some 2) None = [15; 16] /\ find_swaps (run hist) 0 (Some 1) (Some 2) (Some 1%nat) = [10] /\ find_swaps (run hist) 0 None None None = [10; 14; 15; 16] /\
  get_swaps (fun i x => if (i =? 0)%nat then x mod 7 else x) (fun x => x) (run hist) 0 (Some 1) None None = [10; 16; 14].
Proof. vm_compute. repeat split. Qed.
