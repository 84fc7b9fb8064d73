(** Proofs about the record of liquidity *)
Require Import List Arith NArith ZArith Bool Lia Sorted.
From Verif Require Import BytesLib OrdLib EngineModel EngineUpper CtrModel CtrSpec CtrProofs CtrProps SwapModel SwapSpec SwapProofs SwapProps LiqModel LiqSpec.
Import List ListNotations.
Open Scope N_scope.
Import Swap.

(** ** What a call does to the entry of the caller, and to others *)
Definition others {A} (e : env) (m : act vars A) : Prop :=
  forall c x c', m e c = Some (x, c') -> forall k, k <> e_user e -> find k (users (c_vars c')) = find k (users (c_vars c)).
Lemma find_put_other k k' u l : k' <> k -> find k' (put k u l) = find k' l.
Proof.
  intros NE. induction l as [|(x, o) l IH]; cbn; [destruct (key_eqb_spec k k'); congruence|].
  destruct (key_eqb_spec x k) as [->|]; cbn; [destruct (key_eqb_spec k k'); congruence|]. destruct (key_eqb_spec x k'); auto.
Qed.
Lemma t_bind {A B} e (m : act vars A) (k : A -> act vars B) : others e m -> (forall x, others e (k x)) -> others e (bind m k).
Proof. intros M K c x c' H a NE. step H. rewrite (K _ _ _ _ H a NE). exact (M _ _ _ H0 a NE). Qed.
Lemma t_pure {A} e (m : act vars A) : (forall c x c', m e c = Some (x, c') -> users (c_vars c') = users (c_vars c)) -> others e m.
Proof. intros H c x c' E k _. now rewrite (H _ _ _ E). Qed.
Lemma t_get e : others e (@get vars). Proof. apply t_pure. now intros c x c' [= <- <-]. Qed.
Lemma t_user e : others e (@user vars). Proof. apply t_pure. now intros c x c' [= <- <-]. Qed.
Lemma t_height e : others e (@height vars). Proof. apply t_pure. now intros c x c' [= <- <-]. Qed.
Lemma t_ret {A} e (x : A) : others e (ret x). Proof. apply t_pure. now intros c y c' [= <- <-]. Qed.
Lemma t_fail {A} e : others e (@fail vars A). Proof. now intros c y c' H. Qed.
Lemma t_assert e b : others e (@assert vars b). Proof. apply t_pure. intros c x c' H. apply assert_inv in H as (_ & ->). auto. Qed.
Lemma t_deposit e : others e (@deposit vars). Proof. apply t_pure. intros c x c' H. apply deposit_inv in H as (_ & ->). auto. Qed.
Lemma t_uadd e l r : others e (@uadd vars l r). Proof. apply t_pure. intros c x c' H. apply uadd_same in H as ->. auto. Qed.
Lemma t_usub e l r : others e (@usub vars l r). Proof. apply t_pure. unfold usub. intros c x c'. destruct (l <? _); [discriminate|]. now intros [= _ <-]. Qed.
Lemma t_umul e l r : others e (@umul vars l r). Proof. apply t_pure. intros c x c' H. apply umul_le in H as (_ & _ & ->). auto. Qed.
Lemma t_udiv e l r : others e (@udiv vars l r). Proof. apply t_pure. intros c x c' H. apply udiv_inv in H as (_ & _ & ->). auto. Qed.
Lemma t_ushr e l r : others e (@ushr vars l r). Proof. apply t_ret. Qed.
Lemma t_send0 e a n cur : others e (@send vars a n cur).
Proof. apply t_pure. intros c x c' H. apply send_inv in H as [(_ & ->)|(_ & _ & ->)]; reflexivity. Qed.
Lemma t_send e i n : others e (send_user i n).
Proof. unfold send_user. apply t_bind; [apply t_user|intros k]. apply t_bind; [apply t_get|intros v]. destruct k; [apply t_send0|apply t_fail]. Qed.
Lemma t_set_user e u : others e (set_user u).
Proof. intros c x c' H k NE. apply set_user_inv in H as ->. cbn [c_vars users]. now apply find_put_other. Qed.
Lemma t_set_pool e n p : others e (set_pool n p).
Proof. apply t_pure. intros c x c' H. apply set_pool_inv in H as ->. reflexivity. Qed.
Lemma t_get_user e : others e get_user. Proof. apply t_pure. intros c x c' H. apply get_user_inv in H as (-> & _). reflexivity. Qed.
Lemma t_get_pool e n : others e (get_pool n). Proof. apply t_pure. intros c x c' H. apply get_pool_inv in H as (-> & _). reflexivity. Qed.
Create HintDb others.
#[export] Hint Resolve t_get t_user t_height t_ret t_fail t_assert t_deposit t_uadd t_usub t_umul t_udiv t_ushr t_send0 t_send t_set_user t_set_pool t_get_user t_get_pool : others.
Ltac others_tac := repeat first [ progress (auto with others) | apply t_bind; [|intro] | progress cbv zeta | match goal with |- others _ (match ?x with _ => _ end) => destruct x end | match goal with |- others _ (if ?x then _ else _) => destruct x end ].
Lemma t_payout e : others e payout_. Proof. unfold payout_, earned1, payout1. others_tac. Qed.
#[export] Hint Resolve t_payout : others.
Lemma t_add e i n a : others e (add_liquid_ i n a). Proof. unfold add_liquid_, enter. others_tac. Qed.
Lemma t_rem e i n b : others e (rem_liquid_ i n b). Proof. unfold rem_liquid_, shares. others_tac. Qed.
#[export] Hint Resolve t_add t_rem : others.
Lemma t_rem' e i n b : others e (rem_liquid i n b). Proof. unfold rem_liquid. others_tac. Qed.
#[export] Hint Resolve t_rem' : others.
Lemma t_each e f i out : (forall i n, others e (f i n)) -> others e (each f i out).
Proof. intros F. unfold each. others_tac. Qed.
Lemma t_best e i a : forall l n acc, others e (best l n i a acc).
Proof. induction l as [|p l IH]; intros n acc; cbn [best]; unfold quote; others_tac. Qed.
Definition still {A} (e : env) (m : act vars A) : Prop := forall c x c', m e c = Some (x, c') -> users (c_vars c') = users (c_vars c).
Lemma s_bind {A B} e (m : act vars A) (k : A -> act vars B) : still e m -> (forall x, still e (k x)) -> still e (bind m k).
Proof. intros M K c x c' H. step H. rewrite (K _ _ _ _ H). exact (M _ _ _ H0). Qed.
Lemma s_get e : still e (@get vars). Proof. now intros c x c' [= <- <-]. Qed.
Lemma s_ret {A} e (x : A) : still e (ret x). Proof. now intros c y c' [= <- <-]. Qed.
Lemma s_assert e b : still e (@assert vars b). Proof. intros c x c' H. apply assert_inv in H as (_ & ->). auto. Qed.
Lemma s_deposit e : still e (@deposit vars). Proof. intros c x c' H. apply deposit_inv in H as (_ & ->). auto. Qed.
Lemma s_uadd e l r : still e (@uadd vars l r). Proof. intros c x c' H. apply uadd_same in H as ->. auto. Qed.
Lemma s_usub e l r : still e (@usub vars l r). Proof. unfold usub. intros c x c'. destruct (l <? _); [discriminate|]. now intros [= _ <-]. Qed.
Lemma s_umul e l r : still e (@umul vars l r). Proof. intros c x c' H. apply umul_le in H as (_ & _ & ->). auto. Qed.
Lemma s_udiv e l r : still e (@udiv vars l r). Proof. intros c x c' H. apply udiv_inv in H as (_ & _ & ->). auto. Qed.
Lemma s_ushr e l r : still e (@ushr vars l r). Proof. apply s_ret. Qed.
Lemma s_send0 e a n cur : still e (@send vars a n cur).
Proof. intros c x c' H. apply send_inv in H as [(_ & ->)|(_ & _ & ->)]; reflexivity. Qed.
Lemma s_get_pool e n : still e (get_pool n). Proof. intros c x c' H. apply get_pool_inv in H as (-> & _). reflexivity. Qed.
Create HintDb still.
#[export] Hint Resolve s_get s_ret s_assert s_deposit s_uadd s_usub s_umul s_udiv s_ushr s_send0 s_get_pool : still.
Ltac still_tac := repeat first [ progress (auto with still) | apply s_bind; [|intro] | progress cbv zeta | match goal with |- still _ (match ?x with _ => _ end) => destruct x end | match goal with |- still _ (if ?x then _ else _) => destruct x end ].
Lemma s_best e i a : forall l n acc, still e (best l n i a acc).
Proof. induction l as [|p l IH]; intros n acc; cbn [best]; unfold quote; still_tac. Qed.
Lemma s_loop e i chunk : forall n left total, still e (trade_loop n i chunk left total).
Proof.
  induction n as [|n IH]; intros left total; cbn [trade_loop]; [auto with still|]. destruct (0 <? left); [|auto with still]. cbv zeta.
  intros c x c' H. step H. simp H0. step H. apply s_best in H0. match type of H with match ?o with _ => _ end _ _ = _ => destruct o as [(m, ((t, fee), g))|] end.
  - step H. apply get_pool_inv in H1 as (-> & _). step H. apply uadd_same in H1 as ->. step H. apply uadd_same in H1 as ->. step H. apply uadd_same in H1 as ->.
    step H. apply s_usub in H1. step H. apply uadd_same in H2 as ->. step H. apply s_usub in H2. step H. injection H3 as _ <-. apply IH in H. cbn [c_vars users] in H. congruence.
  - apply IH in H. congruence.
Qed.
Lemma s_trade e i dst m n : still e (trade i dst m n).
Proof. unfold trade. still_tac. apply s_loop. Qed.
Lemma exec_others m e : others e (exec m).
Proof.
  destruct m as [|i n|i amount dry|dry|n|i dst mn n]; cbn [exec]; auto with others.
  - unfold add_liquid. others_tac.
  - others_tac.
  - unfold rem_all_liquid. others_tac; apply t_each; auto with others.
  - unfold switch_pool. others_tac; apply t_each; auto with others.
  - intros c x c' H k _. now rewrite (s_trade _ _ _ _ _ _ _ _ H).
Qed.

Definition held (k : option addr) (v : vars) : N2 := match find k (users v) with Some u => u_bal u | None => (0, 0) end.
Lemma held_same k c c' : same_user k c c' -> find k (users (c_vars c)) <> None -> held k (c_vars c') = held k (c_vars c).
Proof. intros S N. unfold held. destruct (find k (users (c_vars c))) as [u|] eqn:F; [|congruence]. destruct (S _ F) as (u' & -> & _ & -> & _). reflexivity. Qed.
Lemma payout_held e c x c' : W (c_vars c) -> payout_ e c = Some (x, c') -> held (e_user e) (c_vars c') = held (e_user e) (c_vars c).
Proof.
  intros HW H. pose proof H as H0. unfold payout_ in H0. step H0. apply get_user_inv in H1 as (_ & F). apply payout_moved in H as (_ & SU & _); auto. apply held_same; auto. congruence.
Qed.
Lemma held_bound k v i : W v -> at2 i (held k v) < 2 ^ 256.
Proof. intros HW. unfold held. destruct (find k (users v)) as [u|] eqn:F; [|now destruct i]. destruct (W_user_at _ _ _ HW F) as (p & _ & B). apply B. Qed.
Lemma enter_held n e c x c' : W (c_vars c) -> enter n e c = Some (x, c') -> held (e_user e) (c_vars c') = held (e_user e) (c_vars c).
Proof.
  intros HW H. unfold enter in H. step H. simp H0. step H. simp H0. destruct (find (e_user e) (users (c_vars c))) as [u|] eqn:F.
  - step H. match type of H0 with _ = Some (_, ?cc) => assert (Q : held (e_user e) (c_vars cc) = held (e_user e) (c_vars c)) end.
    { destruct ((0 <? fst (u_bal u)) || (0 <? snd (u_bal u))); [|now injection H0 as _ <-]. step H0. simp H1. now apply payout_held in H0. }
    step H. apply get_user_inv in H1 as (-> & F1). apply set_user_inv in H as ->. rewrite <- Q. unfold held. cbn [c_vars users]. rewrite find_put, F1. reflexivity.
  - apply set_user_inv in H as ->. unfold held. cbn [c_vars users]. now rewrite find_put, F.
Qed.
Lemma add_held i n amount e c x c' : W (c_vars c) -> add_liquid_ i n amount e c = Some (x, c') -> amount < 2 ^ 256 ->
  held (e_user e) (c_vars c') = upd2 i (at2 i (held (e_user e) (c_vars c)) + amount) (held (e_user e) (c_vars c)).
Proof.
  intros HW H AB. unfold add_liquid_ in H. step H. simp H0. step H. simp H0. step H. apply enter_held in H0 as EH; auto.
  step H. apply get_pool_inv in H1 as (-> & G). step H. apply get_user_inv in H1 as (-> & F). step H. simp H1.
  step H. apply uadd_same in H1 as ->. step H. apply uadd_same in H1 as ->. step H.
  pose proof (held_bound (e_user e) (c_vars c) i HW) as HB. rewrite <- EH in HB |- *. unfold held in HB |- *. rewrite F in HB |- *.
  apply uadd_inv in H1 as (-> & _ & ->); auto. step H. apply uadd_same in H1 as ->. cbv zeta in H. step H. apply set_pool_inv in H1 as ->. apply set_user_inv in H as ->. cbn [c_vars users]. rewrite find_put. reflexivity.
Qed.
Lemma rem_held i amount dry e c x c' : W (c_vars c) -> rem_liquid i amount dry e c = Some (x, c') ->
  amount <= at2 i (held (e_user e) (c_vars c)) /\ held (e_user e) (c_vars c') = upd2 i (at2 i (held (e_user e) (c_vars c)) - amount) (held (e_user e) (c_vars c)).
Proof.
  intros HW H. unfold rem_liquid in H. step H. simp H0. step H. apply get_user_inv in H0 as (-> & F). step H.
  assert (c0 = c) by (destruct dry; [now injection H0 as _ <-|]; step H0; simp H1; now simp H0). subst c0. clear H0. step H. simp H0. apply N.leb_le in E0.
  apply rem_inv in H as (u & p & rt & F1 & _ & _ & _ & _ & _ & _ & _ & V & _); auto; [|intros u' F'; rewrite F in F'; injection F' as <-; auto].
  rewrite F in F1. injection F1 as <-. unfold held. rewrite V. cbn [users]. rewrite find_put, F. auto.
Qed.
Lemma each_held i dry out e c x c' : W (c_vars c) -> each (fun i n => rem_liquid i n dry) i out e c = Some (x, c') -> (forall j, at2 j out < 2 ^ 256) ->
  held (e_user e) (c_vars c') = upd2 i 0 (held (e_user e) (c_vars c)) /\ W (c_vars c') /\ (forall j, at2 j x < 2 ^ 256).
Proof.
  intros HW H OB. pose proof H as H9. apply (each_moved dry) in H9 as (M & B); auto; [|intros; eapply rem_liquid_moved; eauto]. split; [|split; [apply M|exact B]]. clear M B.
  unfold each in H. step H. apply get_user_inv in H0 as (-> & F). cbv zeta in H. destruct (N.ltb_spec 0 (at2 i (u_bal x0))) as [L|L].
  - step H. apply rem_held in H0 as (_ & E); auto. step H. apply uadd_same in H0 as ->. step H. apply uadd_same in H0 as ->. injection H as _ <-. rewrite E.
    replace (at2 i (held (e_user e) (c_vars c))) with (at2 i (u_bal x0)) by (unfold held; now rewrite F). now rewrite N.sub_diag.
  - injection H as _ <-. unfold held. rewrite F. destruct (u_bal x0) as (a, b), i; cbn in *; f_equal; lia.
Qed.
(** the entry of the caller *)
Lemma exec_held m e v bal x c : exec m e (begin e v bal) = Some (x, c) -> W v -> (forall cur n, e_deposit e = Some (cur, n) -> n < 2 ^ 128) ->
  match m with
  | Payout | Trade _ _ _ _ => held (e_user e) (c_vars c) = held (e_user e) v
  | AddLiquid i _ => exists cur n, e_deposit e = Some (cur, n) /\ held (e_user e) (c_vars c) = upd2 i (at2 i (held (e_user e) v) + n) (held (e_user e) v)
  | RemLiquid i n _ => n <= at2 i (held (e_user e) v) /\ held (e_user e) (c_vars c) = upd2 i (at2 i (held (e_user e) v) - n) (held (e_user e) v)
  | RemAllLiquid _ => held (e_user e) (c_vars c) = (0, 0)
  | SwitchPool _ => True
  end.
Proof.
  intros H HW D. assert (HB : W (c_vars (begin e v bal))) by exact HW.
  destruct m as [|i n|i amount dry|dry|n|i dst mn n]; cbn [exec] in H.
  - now apply payout_held in H.
  - unfold add_liquid in H. step H. simp H0. step H. simp H0. step H. simp H1. match goal with D0 : e_deposit e = Some ?y |- _ => destruct y as (cur, amount) end. cbn [fst snd] in H. exists cur, amount. split; auto.
    apply add_held in H; auto. apply N.lt_trans with (2 ^ 128); [eauto|reflexivity].
  - step H. apply rem_held in H0; auto. now injection H as _ <-.
  - step H. injection H as _ <-. unfold rem_all_liquid in H0. step H0. apply payout_moved in H as M; auto. destruct M as (M & _).
    step H0. apply each_held in H1 as (E1 & W1 & B1); [| |now intros []]; [|apply M]. apply each_held in H0 as (E2 & _); auto. rewrite E2, E1. destruct (held _ _). reflexivity.
  - exact I.
  - apply s_trade in H. unfold held. now rewrite H.
Qed.

(** ** The record *)
Lemma pair_total : TotalCmp pair_cmp. Proof. apply lexcmp_total; apply bytescmp_total. Qed.
Definition recd (r : records) (a s : addr) : N2 := match aget pair_cmp (a, s) r with Some b => b | None => (0, 0) end.
Definition mod2 (x : N2) : N2 := (fst x mod 2 ^ 128, snd x mod 2 ^ 128).
Definition J (A : list addr) (x : world * records) : Prop :=
  asorted pair_cmp (snd x) /\
  (forall s v b, fst x s = Some (v, b) -> Inv (tokens v) (v, b) /\ is_addr s) /\
  (forall a s, In a A -> match fst x s with Some (v, _) => recd (snd x) a s = mod2 (liquidity v a) | None => aget pair_cmp (a, s) (snd x) = None end).
Lemma aget_other k k' b (r : records) : asorted pair_cmp r -> k' <> k -> aget pair_cmp k' (aset pair_cmp k b r) = aget pair_cmp k' r.
Proof. intros S NE. rewrite (aget_aset pair_total); auto. destruct (pair_cmp k' k) eqn:E; auto. apply (tc_eq pair_total) in E. congruence. Qed.
Lemma aget_same k b (r : records) : asorted pair_cmp r -> aget pair_cmp k (aset pair_cmp k b r) = Some b.
Proof. intros S. rewrite (aget_aset pair_total); auto. now rewrite (cmp_refl pair_total). Qed.
Lemma note_sorted o r : asorted pair_cmp r -> asorted pair_cmp (note o r).
Proof.
  intros S. unfold note. destruct (o_via o); auto; (destruct (e_user (o_env o)); auto; destruct (first_arg o); auto; cbv zeta; match goal with |- context [if ?b then _ else _] => destruct b end; auto; destruct (o_method o); auto; try (apply (aset_sorted pair_total); auto));
    (destruct (e_deposit (o_env o)) as [(? & ?)|]; auto; apply (aset_sorted pair_total); auto).
Qed.
(** a call writes nothing under the addresses of others *)
Lemma note_other o r a s : asorted pair_cmp r -> e_user (o_env o) <> Some a -> aget pair_cmp (a, s) (note o r) = aget pair_cmp (a, s) r.
Proof.
  intros S NE. unfold note. destruct (o_via o); auto; (destruct (e_user (o_env o)) as [u|]; auto; destruct (first_arg o); auto; cbv zeta; match goal with |- context [if ?b then _ else _] => destruct b end; auto; destruct (o_method o); auto; try (apply aget_other; auto; congruence));
    (destruct (e_deposit (o_env o)) as [(? & ?)|]; auto; apply aget_other; auto; congruence).
Qed.
Lemma note_elsewhere o r a s : asorted pair_cmp r -> o_via o = Named -> s <> o_swap o -> aget pair_cmp (a, s) (note o r) = aget pair_cmp (a, s) r.
Proof.
  intros S V NE. unfold note. rewrite V. destruct (e_user (o_env o)) as [u|]; auto; destruct (first_arg o); auto; cbv zeta. match goal with |- context [if ?b then _ else _] => destruct b end; auto; destruct (o_method o); auto; try (apply aget_other; auto; congruence).
  destruct (e_deposit (o_env o)) as [(? & ?)|]; auto; apply aget_other; auto; congruence.
Qed.
Lemma add128_mod x n : add128 (x mod 2 ^ 128) n = (x + n) mod 2 ^ 128.
Proof. unfold add128. apply N.add_mod_idemp_l. discriminate. Qed.
Lemma sub128_mod x n : n <= x -> sub128 (x mod 2 ^ 128) n = (x - n) mod 2 ^ 128.
Proof.
  intros L. unfold sub128. assert (M : 2 ^ 128 <> 0) by discriminate. rewrite N.add_mod_idemp_l by auto.
  pose proof (N.div_mod n (2 ^ 128) M) as E. pose proof (N.mod_lt n (2 ^ 128) M) as B. remember (2 ^ 128) as m eqn:Em. clear Em.
  rewrite <- (N.mod_add (x - n) (n / m + 1) m) by auto. f_equal. lia.
Qed.
Lemma b2n_index i : b2n i mod 2 ^ 32 = b2n i. Proof. now destruct i. Qed.
Lemma b2n_lt i : (b2n i <? 2) = true. Proof. now destruct i. Qed.
Lemma b2n_eq i : (b2n i =? 1) = i. Proof. now destruct i. Qed.
Lemma at2_mod2 i x : at2 i (mod2 x) = at2 i x mod 2 ^ 128. Proof. now destruct i. Qed.
Lemma upd2_mod2 i n x : upd2 i (n mod 2 ^ 128) (mod2 x) = mod2 (upd2 i n x). Proof. now destruct i. Qed.
Lemma held_liquidity v a : held (Some a) v = liquidity v a. Proof. reflexivity. Qed.

Lemma set_swap_same w s x : set_swap w s x s = Some x. Proof. unfold set_swap. now rewrite addr_eqb_refl. Qed.
Lemma set_swap_other w s x a : a <> s -> set_swap w s x a = w a. Proof. unfold set_swap. destruct (addr_eqb_spec a s); congruence. Qed.

Lemma J_step A x st y : advance x st = Some y -> J A x ->
  match st with Deploy s _ _ => is_addr s | Exec o => (forall cur n, e_deposit (o_env o) = Some (cur, n) -> n < 2 ^ 128) /\ (forall a, e_user (o_env o) = Some a -> In a A -> plain o) | _ => True end ->
  J A y.
Proof.
  destruct x as (w, r). unfold advance. destruct st as [s t cur|o|s cur n]; intros H (S & V & R) P; cbn [fst snd] in *.
  - destruct (w s) as [|] eqn:WS; [discriminate|]. destruct (init t cur) as [v|] eqn:I; [|discriminate]. injection H as <-. split; [exact S|]. cbn [fst snd]. split.
    + intros s' v' b' E. destruct (addr_eqb_spec s' s) as [->|NE]; [|rewrite set_swap_other in E; eauto]. rewrite set_swap_same in E. injection E as <- <-. split; auto.
      assert (T : tokens v = (t, cur)). { unfold init in I. destruct (addr_eqb t cur); [discriminate|]. now injection I as <-. } rewrite T. eapply inv_init; eauto.
    + intros a s' IN. specialize (R a s' IN). destruct (addr_eqb_spec s' s) as [->|NE]; [|rewrite set_swap_other; auto]. rewrite set_swap_same. rewrite WS in R. unfold recd. rewrite R.
      unfold liquidity, init in *. destruct (addr_eqb t cur); [discriminate|]. injection I as <-. reflexivity.
  - destruct P as (D & P). destruct (w (o_swap o)) as [(v, bal)|] eqn:WS; [|discriminate]. destruct (exec (o_method o) (o_env o) (begin (o_env o) v bal)) as [([], c)|] eqn:X; [|discriminate]. injection H as <-.
    destruct (V _ _ _ WS) as (IV & IA). split; [now apply note_sorted|]. cbn [fst snd]. split.
    + intros s' v' b' E. destruct (addr_eqb_spec s' (o_swap o)) as [->|NE]; [|rewrite set_swap_other in E; eauto]. rewrite set_swap_same in E. injection E as <- <-. split; auto.
      assert (HP : happens exec (v, bal) (Call (o_env o) (o_method o)) (rev (c_sent c)) (rev (c_minted c)) (c_vars c, c_bal c)) by now constructor.
      destruct (inv_step _ _ _ _ _ _ HP IV D) as (I2 & _). pose proof I2 as (_ & _ & T & _). cbn [fst] in T. rewrite T. exact I2.
    + intros a s' IN. pose proof (R a s' IN) as Ra. assert (U : e_user (o_env o) = Some a \/ e_user (o_env o) <> Some a).
      { destruct (e_user (o_env o)) as [u|]; [|right; discriminate]. destruct (addr_eqb_spec u a); [left|right]; congruence. }
      destruct U as [U|U].
      * destruct (P a U IN) as (VN & NSW & RA). destruct (addr_eqb_spec s' (o_swap o)) as [->|NE].
        2: { rewrite set_swap_other by auto. unfold recd. rewrite note_elsewhere; auto. }
        rewrite set_swap_same. rewrite WS in Ra. destruct IV as (HW & _). cbn [fst] in HW. apply exec_held in X; auto. rewrite U, !held_liquidity in X. unfold recd, note. rewrite VN, U. unfold first_arg.
        fold (recd r a (o_swap o)). rewrite Ra. clear Ra. destruct (o_method o) as [|i n|i amount dry|dry|n|i dst mn n] eqn:M.
        -- unfold recd in *. rewrite X. specialize (R a (o_swap o) IN). now rewrite WS in R.
        -- destruct X as (cur & k & D0 & X). cbv zeta. rewrite b2n_index, b2n_lt, b2n_eq, D0, aget_same by auto. rewrite X, at2_mod2, add128_mod. apply upd2_mod2.
        -- destruct X as (L & X). cbv zeta. rewrite b2n_index, b2n_lt, b2n_eq, aget_same by auto. rewrite X, at2_mod2, sub128_mod by auto. apply upd2_mod2.
        -- rewrite (RA _ eq_refl). cbv zeta. rewrite b2n_index, b2n_lt, aget_same by auto. rewrite X. reflexivity.
        -- now destruct (NSW n).
        -- cbv zeta. rewrite b2n_index, b2n_lt. rewrite X. specialize (R a (o_swap o) IN). now rewrite WS in R.
      * unfold recd in *. rewrite note_other by auto. destruct (addr_eqb_spec s' (o_swap o)) as [->|NE]; [|rewrite set_swap_other; auto]. rewrite set_swap_same. rewrite WS in Ra. rewrite Ra.
        unfold liquidity. assert (U' : Some a <> e_user (o_env o)) by congruence. pose proof (exec_others _ _ _ _ _ X (Some a) U') as X'. clear X. rename X' into X. cbn [begin c_vars] in X. now rewrite X.
  - destruct (w s) as [(v, bal)|] eqn:WS; [|discriminate]. injection H as <-. split; [exact S|]. cbn [fst snd]. split.
    + intros s' v' b' E. destruct (addr_eqb_spec s' s) as [->|NE]; [|rewrite set_swap_other in E; eauto]. rewrite set_swap_same in E. injection E as <- <-. destruct (V _ _ _ WS) as (IV & IA). split; auto.
      assert (HP : happens exec (v, bal) (Receive cur n) [] [] (v, credit bal cur n)) by constructor.
      destruct (inv_step _ _ _ _ _ _ HP IV I) as (I2 & _). exact I2.
    + intros a s' IN. specialize (R a s' IN). destruct (addr_eqb_spec s' s) as [->|NE]; [|rewrite set_swap_other; auto]. rewrite set_swap_same. now rewrite WS in R.
Qed.
Lemma J_run A : forall l x y, run x l = Some y -> J A x -> formed l -> plain_users A l -> J A y.
Proof.
  induction l as [|st l IH]; intros x y H JX F P; cbn [run] in H; [now injection H as <-|]. destruct (advance x st) as [x'|] eqn:E; [|discriminate].
  apply IH with (x := x'); auto.
  - eapply J_step; eauto. destruct F as (F1 & F2). destruct st as [s t c|o|]; auto; [eapply F1; left; reflexivity|]. split; [intros; eapply F2; [left; reflexivity|eauto]|]. intros a U IN. eapply P; eauto. now left.
  - destruct F as (F1 & F2). split; [intros; eapply F1; right; eauto|intros; eapply F2; [right; eauto|eauto]].
  - intros o a IN. apply P. now right.
Qed.
Lemma J_genesis A : J A genesis.
Proof. split; [constructor|]. split; [discriminate|]. intros a s _. reflexivity. Qed.

(** ** The query *)
Lemma bytescmp_zeros n : forall s, List.length s = n -> bytescmp s (repeat 0 n) <> Lt.
Proof. induction n as [|n IH]; intros [|b s] L; try discriminate; cbn [repeat bytescmp]. destruct (N.compare_spec b 0); [|lia|discriminate]. apply IH. now injection L. Qed.
Lemma bytescmp_ones n : forall s, List.length s = n -> Forall (fun b => b < 256) s -> s <> repeat 255 n -> bytescmp s (repeat 255 n) = Lt.
Proof.
  induction n as [|n IH]; intros [|b s] L F NE; try discriminate; cbn [repeat bytescmp] in *; [congruence|]. inversion F; subst. destruct (N.compare_spec b 255); [|reflexivity|lia]. subst b.
  apply IH; auto. congruence.
Qed.
Lemma in_range a b s : (negb (pair_ltb (b, s) (a, zeros)) && pair_ltb (b, s) (a, ones)) = true -> b = a.
Proof.
  unfold pair_ltb, pair_cmp, lexcmp. cbn [fst snd]. destruct (bytescmp b a) eqn:E; cbn; try discriminate. intros _. now apply (tc_eq bytescmp_total) in E.
Qed.
Lemma range_in a s : is_addr s -> s <> ones -> (negb (pair_ltb (a, s) (a, zeros)) && pair_ltb (a, s) (a, ones)) = true.
Proof.
  intros (L & F) NE. unfold pair_ltb, pair_cmp, lexcmp. cbn [fst snd]. rewrite (cmp_refl bytescmp_total). rewrite (bytescmp_ones 32 s L F NE : bytescmp s ones = Lt). rewrite andb_true_r.
  pose proof (bytescmp_zeros 32 s L) as Z. fold zeros in Z. destruct (bytescmp s zeros); auto; congruence.
Qed.
Lemma rows_sorted r a : asorted pair_cmp r -> asorted pair_cmp (rows_of r a).
Proof. intros S. unfold rows_of. apply asorted_filter. exact S. Qed.
Lemma rows_of_get r a s : asorted pair_cmp r -> is_addr s -> s <> ones -> aget pair_cmp (a, s) (rows_of r a) = aget pair_cmp (a, s) r.
Proof.
  intros S IA NE. unfold rows_of. assert (SF : asorted pair_cmp (filter (fun x : addr * addr * N2 => negb (pair_ltb (fst x) (a, zeros)) && pair_ltb (fst x) (a, ones)) r)) by (apply (rows_sorted r a S)).
  destruct (aget pair_cmp (a, s) r) as [b|] eqn:E.
  - apply (aget_In pair_total) in E; auto. apply (aget_In pair_total); auto. apply filter_In. split; auto. now apply range_in.
  - pose proof (proj1 (aget_None pair_total _ S) E) as NI. apply (aget_None pair_total); auto. intros v IN. apply filter_In in IN as (IN & _). eapply NI; eauto.
Qed.
Lemma rows_of_fst r a x : In x (rows_of r a) -> fst (fst x) = a.
Proof. intros IN. apply filter_In in IN as (_ & B). destruct x as ((b, s), v). cbn [fst] in *. eapply in_range; eauto. Qed.
Definition dflt (o : option N2) : N2 := match o with Some b => b | None => (0, 0) end.
Definition add2 (x y : N2) : N2 := (add128 (fst x) (fst y), add128 (snd x) (snd y)).
Lemma acc_rows a s : forall rows m, asorted bytescmp m -> asorted pair_cmp rows -> (forall x, In x rows -> fst (fst x) = a) ->
  asorted bytescmp (fold_left accumulate rows m) /\
  aget bytescmp s (fold_left accumulate rows m) = match aget pair_cmp (a, s) rows with Some b => Some (add2 (dflt (aget bytescmp s m)) b) | None => aget bytescmp s m end.
Proof.
  induction rows as [|((a', s'), b) rows IH]; intros m SM SR FA; cbn [fold_left aget]; [auto|].
  assert (a' = a) by (apply (FA _ (or_introl eq_refl))). subst a'. destruct (asorted_cons_inv SR) as (SR' & LT).
  change (accumulate m (a, s', b)) with (aset bytescmp s' (add2 (dflt (aget bytescmp s' m)) b) m). destruct (IH (aset bytescmp s' (add2 (dflt (aget bytescmp s' m)) b) m)) as (S1 & E1); auto; [now apply (aset_sorted bytescmp_total)|intros x IN; apply FA; now right|].
  split; [exact S1|]. refine (eq_trans E1 _). rewrite (aget_aset bytescmp_total) by auto.
  unfold pair_cmp at 2, lexcmp. cbn [fst snd]. rewrite (cmp_refl bytescmp_total). destruct (bytescmp s s') eqn:C; [|reflexivity|reflexivity].
  apply (tc_eq bytescmp_total) in C. subst s'. replace (aget pair_cmp (a, s) rows) with (@None N2); [reflexivity|]. symmetry. apply (aget_None pair_total); auto.
  intros v IN. apply LT in IN. now apply (klt_irrefl pair_total) in IN.
Qed.
Fixpoint sums (r : records) (s : addr) (l : list addr) (o : option N2) : option N2 :=
  match l with [] => o | a :: l => sums r s l (match aget pair_cmp (a, s) r with Some b => Some (add2 (dflt o) b) | None => o end) end.
Lemma collect_spec r s : asorted pair_cmp r -> is_addr s -> s <> ones -> forall l m, asorted bytescmp m ->
  asorted bytescmp (fold_left (fun m a => fold_left accumulate (rows_of r a) m) l m) /\
  aget bytescmp s (fold_left (fun m a => fold_left accumulate (rows_of r a) m) l m) = sums r s l (aget bytescmp s m).
Proof.
  intros S IA NE. induction l as [|a l IH]; intros m SM; cbn [fold_left sums]; [auto|].
  destruct (acc_rows a s (rows_of r a) m SM) as (S1 & E1); [now apply rows_sorted|apply rows_of_fst|]. destruct (IH _ S1) as (S2 & E2). split; [exact S2|]. rewrite E2. f_equal.
  refine (eq_trans E1 _). now rewrite rows_of_get.
Qed.
Lemma collect_sorted r l : asorted pair_cmp r -> asorted bytescmp (collect r l).
Proof.
  intros S. unfold collect. assert (SM : asorted bytescmp (@nil (addr * N2))) by constructor. revert SM. generalize (@nil (addr * N2)) as m. induction l as [|a l IH]; intros m SM; cbn [fold_left]; auto.
  apply IH. apply (acc_rows a zeros); auto; [now apply rows_sorted|apply rows_of_fst].
Qed.
Lemma collect_source r l : forall m s b, In (s, b) (fold_left (fun m a => fold_left accumulate (rows_of r a) m) l m) -> asorted pair_cmp r -> asorted bytescmp m ->
  (exists b, In (s, b) m) \/ exists a b, In a l /\ In ((a, s), b) r.
Proof.
  induction l as [|a l IH]; intros m s b IN S SM; cbn [fold_left] in IN; [left; eauto|].
  assert (S1 : asorted bytescmp (fold_left accumulate (rows_of r a) m)) by (apply (acc_rows a zeros); auto; [now apply rows_sorted|apply rows_of_fst]).
  apply IH in IN as [(b1 & IN)|(a1 & b1 & IN & R)]; auto; [|right; exists a1, b1; split; [now right|auto]].
  apply (aget_In bytescmp_total) in IN; auto. rewrite (proj2 (acc_rows a s (rows_of r a) m SM (rows_sorted r a S) (rows_of_fst r a))) in IN.
  assert (Q : match aget pair_cmp (a, s) (rows_of r a) with Some b => Some (add2 (dflt (aget bytescmp s m)) b) | None => aget bytescmp s m end = Some b1) by exact IN. clear IN.
  destruct (aget pair_cmp (a, s) (rows_of r a)) as [b2|] eqn:E.
  - apply (aget_In pair_total) in E; [|now apply rows_sorted]. apply filter_In in E as (E & _). right. exists a, b2. split; [now left|auto].
  - left. exists b1. apply (aget_In bytescmp_total); auto.
Qed.
Lemma describe_some w : forall m, (forall s b, In (s, b) m -> w s <> None) -> exists l, describe w m = Some l.
Proof.
  induction m as [|(s, b) m IH]; intros H; cbn [describe]; [eauto|]. destruct IH as (l & E); [intros; eapply H; right; eauto|].
  destruct (w s) as [(v, bal)|] eqn:E1; [|now destruct (H s b (or_introl eq_refl))]. rewrite E. eauto.
Qed.
Lemma describe_In w s : forall m l, describe w m = Some l -> forall x y t1 t2, In (s, ((t1, x), (t2, y))) l <-> In (s, (x, y)) m /\ exists v bal, w s = Some (v, bal) /\ tokens v = (t1, t2).
Proof.
  induction m as [|(s', b) m IH]; intros l H x y t1 t2; cbn [describe] in H; [injection H as <-; cbn; tauto|].
  destruct (w s') as [(v, bal)|] eqn:E1; [|discriminate]. destruct (describe w m) as [l'|] eqn:E2; [|discriminate]. injection H as <-. specialize (IH l' eq_refl x y t1 t2). cbn [In]. rewrite IH. split.
  - intros [E|(IN & Q)]; [|split; [now right|exact Q]]. injection E as -> <- <- <- <-. split; [left; destruct b; reflexivity|]. exists v, bal. split; auto. destruct (tokens v); reflexivity.
  - intros ([E|IN] & Q); [|right; auto]. injection E as -> ->. left. destruct Q as (v' & bal' & E3 & T). rewrite E1 in E3. injection E3 as <- <-. rewrite T. reflexivity.
Qed.
Lemma add_zero_mod x l t m : m <> 0 -> l mod m = 0 -> (x + t) mod m = (x + l + t) mod m.
Proof. intros NZ Z. apply N.mod_divides in Z as (c & ->); auto. replace (x + m * c + t) with (x + t + c * m) by lia. now rewrite N.mod_add. Qed.
Lemma sums_total r s v : forall l o, (forall a, In a l -> recd r a s = mod2 (liquidity v a)) ->
  sums r s l o = None /\ o = None /\ (forall a, In a l -> aget pair_cmp (a, s) r = None) \/
  exists b, sums r s l o = Some b /\ forall i, at2 i b mod 2 ^ 128 = (at2 i (dflt o) + total i v l) mod 2 ^ 128 /\ (at2 i (dflt o) < 2 ^ 128 -> at2 i b < 2 ^ 128).
Proof.
  induction l as [|a l IH]; intros o R; cbn [sums total fold_right].
  - destruct o as [b|]; [right; exists b; split; auto; intros i; rewrite N.add_0_r; auto|left; split; auto; split; auto; intros a []].
  - pose proof (R a (or_introl eq_refl)) as Ra. unfold recd in Ra. destruct (aget pair_cmp (a, s) r) as [b|] eqn:E.
    + destruct (IH (Some (add2 (dflt o) b))) as [(_ & Q & _)|(b' & E1 & T)]; [intros; apply R; now right|discriminate|]. right. exists b'. split; auto. intros i. destruct (T i) as (T1 & T2).
      assert (AI : at2 i (dflt (Some (add2 (dflt o) b))) = (at2 i (dflt o) + at2 i (liquidity v a)) mod 2 ^ 128).
      { cbn [dflt]. subst b. unfold add2, mod2, add128. destruct i; cbn [at2 fst snd]; apply N.add_mod_idemp_r; discriminate. }
      split.
      * refine (eq_trans T1 _). rewrite AI. unfold total. rewrite N.add_mod_idemp_l by discriminate. f_equal. apply eq_sym, N.add_assoc.
      * intros _. apply T2. rewrite AI. apply N.mod_lt. discriminate.
    + destruct (IH o) as [(E1 & Q & NI)|(b' & E1 & T)]; [intros; apply R; now right| |].
      * left. split; auto. split; auto. intros a' [<-|IN]; auto.
      * right. exists b'. split; auto. intros i. destruct (T i) as (T1 & T2). split; auto. refine (eq_trans T1 _). rewrite N.add_assoc.
        assert (Z : at2 i (liquidity v a) mod 2 ^ 128 = 0). { rewrite <- at2_mod2, <- Ra. now destruct i. }
        apply add_zero_mod; [discriminate|exact Z].
Qed.
