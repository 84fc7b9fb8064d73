(** Proofs about the swap contract *)
Require Import List Arith NArith ZArith Bool Lia.
From Verif Require Import BytesLib EngineModel EngineUpper CtrModel CtrSpec CtrProofs SwapModel SwapSpec.
Import ListNotations. Import Swap.
Open Scope N_scope.

Lemma at2_upd2 {A} i j (v : A) x : at2 j (upd2 i v x) = if Bool.eqb i j then v else at2 j x.
Proof. now destruct i, j. Qed.
Lemma at2_same {A} i (v : A) x : at2 i (upd2 i v x) = v.
Proof. now destruct i. Qed.
Lemma at2_other {A} i (v : A) x : at2 (negb i) (upd2 i v x) = at2 (negb i) x.
Proof. now destruct i. Qed.
Lemma at2_other' {A} i (v : A) x : at2 i (upd2 (negb i) v x) = at2 i x.
Proof. now destruct i. Qed.
Lemma upd_length {A} (l : list A) n x : List.length (upd l n x) = List.length l.
Proof. revert n. induction l as [|y l IH]; intros [|n]; cbn; auto. Qed.
Lemma upd_nth {A} (l : list A) n x old m : nth_error l n = Some old -> nth_error (upd l n x) m = if (m =? n)%nat then Some x else nth_error l m.
Proof.
  revert n m. induction l as [|y l IH]; intros [|n] m H; try discriminate; cbn in *.
  - destruct m; reflexivity.
  - destruct m; cbn; [reflexivity|]. now apply IH.
Qed.
Lemma upd_map {A B} (f : A -> B) l n x old : nth_error l n = Some old -> f x = f old -> map f (upd l n x) = map f l.
Proof. revert n. induction l as [|y l IH]; intros [|n] H E; try discriminate; cbn in *; [congruence|]. f_equal. auto. Qed.
Lemma upd_same {A} (l : list A) n x : nth_error l n = Some x -> upd l n x = l.
Proof. revert n. induction l as [|y l IH]; intros [|n] H; try discriminate; cbn in *; [congruence|]. f_equal. auto. Qed.
Lemma upd_Forall {A} (P : A -> Prop) l n x : Forall P l -> P x -> Forall P (upd l n x).
Proof. intros H Px. revert n. induction H; intros [|n]; cbn; auto. Qed.
Lemma sum_cons {A} (f : A -> N) x l : sumN f (x :: l) = f x + sumN f l.
Proof. reflexivity. Qed.
Lemma sum_upd {A} (f : A -> N) l n x old : nth_error l n = Some old -> sumN f (upd l n x) + f old = sumN f l + f x.
Proof. revert n. induction l as [|y l IH]; intros [|n] H; try discriminate; cbn [upd nth_error] in *; rewrite ?sum_cons; [injection H as ->; lia|]. apply IH in H. lia. Qed.
Lemma key_eqb_spec a b : reflect (a = b) (key_eqb a b).
Proof. destruct a as [x|], b as [y|]; cbn; try (constructor; congruence). destruct (addr_eqb_spec x y); constructor; congruence. Qed.
Lemma sum_put (f : luser -> N) k u l : sumN (fun x => f (snd x)) (put k u l) + match find k l with Some o => f o | None => 0 end = sumN (fun x => f (snd x)) l + f u.
Proof. induction l as [|(x, o) l IH]; cbn [put find]; rewrite ?sum_cons; [cbn; lia|]. destruct (key_eqb x k); rewrite ?sum_cons; cbn [snd]; lia. Qed.
Lemma put_Forall (P : luser -> Prop) k u l : Forall P (map snd l) -> P u -> Forall P (map snd (put k u l)).
Proof. intros H Pu. induction l as [|(x, o) l IH]; cbn in *; [auto|]. inversion H; subst. destruct (key_eqb x k); cbn; auto. Qed.
Lemma put_keys k u l : map fst (put k u l) = map fst l \/ (~ In k (map fst l) /\ map fst (put k u l) = map fst l ++ [k]).
Proof.
  induction l as [|(x, o) l IH]; cbn; [right; auto|]. destruct (key_eqb_spec x k) as [->|]; cbn; [auto|].
  destruct IH as [->|(NI & ->)]; [auto|]. right. split; [intros [|]; auto|reflexivity].
Qed.
Lemma put_nodup k u l : NoDup (map fst l) -> NoDup (map fst (put k u l)).
Proof.
  intros H. destruct (put_keys k u l) as [->|(NI & ->)]; auto. apply NoDup_rev in H. rewrite <- (rev_involutive (map fst l ++ [k])). apply NoDup_rev. rewrite rev_app_distr. cbn.
  constructor; auto. now rewrite <- in_rev.
Qed.
Lemma find_put k u l : find k (put k u l) = Some u.
Proof. induction l as [|(x, o) l IH]; cbn; [destruct (key_eqb_spec k k); congruence|]. destruct (key_eqb_spec x k) as [->|N]; cbn; [destruct (key_eqb_spec k k); congruence|]. destruct (key_eqb_spec x k); congruence. Qed.
Lemma find_Forall (P : luser -> Prop) k u l : Forall P (map snd l) -> find k l = Some u -> P u.
Proof. induction l as [|(x, o) l IH]; cbn; intros H F; [discriminate|]. inversion H; subst. destruct (key_eqb x k); [now injection F as <-|auto]. Qed.

Definition contrib (i : bool) (n : N) (u : luser) : N := if u_pool u =? n then at2 i (u_bal u) else 0.
Definition pool_ok (p : pool) : Prop := forall i, at2 i (p_bal p) < 2 ^ 256 /\ at2 i (p_tot p) < 2 ^ 256 /\ at2 i (p_paid p) < 2 ^ 256 /\ at2 i (p_claimed p) <= at2 i (p_paid p).
Definition user_ok (l : list pool) (u : luser) : Prop := exists p, nth_error l (N.to_nat (u_pool u)) = Some p /\
  forall i, at2 i (u_bal u) < 2 ^ 256 /\ at2 i (u_last_paid u) <= at2 i (p_paid p) /\ at2 i (u_last_tot u) < 2 ^ 256.
Definition W (v : vars) : Prop :=
  fst (tokens v) <> snd (tokens v) /\ Forall pool_ok (state v) /\ Forall (user_ok (state v)) (map snd (users v)) /\
  (forall n p i, nth_error (state v) (N.to_nat n) = Some p -> at2 i (p_tot p) = units i n v) /\ NoDup (map fst (users v)).

Lemma units_put i n t s vol l k u : units i n (mk t s vol (put k u l)) + match find k l with Some o => contrib i n o | None => 0 end = units i n (mk t s vol l) + contrib i n u.
Proof. apply (sum_put (contrib i n)). Qed.
Lemma Wstep t s vol l n old p' k u' :
  W (mk t s vol l) -> nth_error s (N.to_nat n) = Some old -> pool_ok p' -> (forall i, at2 i (p_paid old) <= at2 i (p_paid p')) ->
  u_pool u' = n -> (forall i, at2 i (u_bal u') < 2 ^ 256 /\ at2 i (u_last_paid u') <= at2 i (p_paid p') /\ at2 i (u_last_tot u') < 2 ^ 256) ->
  (forall i, at2 i (p_tot p') + match find k l with Some o => contrib i n o | None => 0 end = at2 i (p_tot old) + at2 i (u_bal u')) ->
  (forall o, find k l = Some o -> u_pool o = n \/ u_bal o = (0, 0)) ->
  forall vol', W (mk t (upd s (N.to_nat n) p') vol' (put k u' l)).
Proof.
  intros (T & P & U & E & ND) G PO PL UP UB EQ PR vol'. cbn [state users tokens] in *. split; [exact T|]. split; [now apply upd_Forall|]. split; [|split].
  - cbn [state users]. apply put_Forall.
    + eapply Forall_impl; [|exact U]. intros u (p & G' & B). unfold user_ok. rewrite (upd_nth _ _ _ _ _ G). destruct (Nat.eqb_spec (N.to_nat (u_pool u)) (N.to_nat n)) as [E'|].
      * exists p'. split; auto. intros i. rewrite E', G in G'. injection G' as <-. specialize (B i). specialize (PL i). lia.
      * exists p. auto.
    + exists p'. rewrite UP, (upd_nth _ _ _ _ _ G), Nat.eqb_refl. auto.
  - intros m p i. cbn [state]. rewrite (upd_nth _ _ _ _ _ G). pose proof (units_put i m t (upd s (N.to_nat n) p') vol' l k u') as UE.
    assert (CU : units i m (mk t (upd s (N.to_nat n) p') vol' l) = units i m (mk t s vol l)) by reflexivity. rewrite CU in UE.
    destruct (Nat.eqb_spec (N.to_nat m) (N.to_nat n)) as [E'|NE].
    + apply N2Nat.inj in E'. subst m. intros [= <-]. rewrite <- (E n old i G) in UE. specialize (EQ i). unfold contrib at 2 in UE. rewrite UP, N.eqb_refl in UE. lia.
    + intros G'. rewrite (E m p i G'). assert (C1 : contrib i m u' = 0). { unfold contrib. destruct (N.eqb_spec (u_pool u') m); auto. subst; congruence. }
      assert (C2 : match find k l with Some o => contrib i m o | None => 0 end = 0).
      { destruct (find k l) as [o|]; auto. unfold contrib. destruct (N.eqb_spec (u_pool o) m); auto. destruct (PR o eq_refl) as [Q| ->]; [subst; congruence|]. now destruct i. }
      lia.
  - now apply put_nodup.
Qed.
Lemma Wpool t s vol l n old p' : W (mk t s vol l) -> nth_error s (N.to_nat n) = Some old -> pool_ok p' -> (forall i, at2 i (p_paid old) <= at2 i (p_paid p')) ->
  (forall i, at2 i (p_tot p') = at2 i (p_tot old)) -> forall vol', W (mk t (upd s (N.to_nat n) p') vol' l).
Proof.
  intros (T & P & U & E & ND) G PO PL EQ vol'. cbn [state users tokens] in *. split; [exact T|]. split; [now apply upd_Forall|]. split; [|split; [|exact ND]].
  - eapply Forall_impl; [|exact U]. intros u (p & G' & B). unfold user_ok. cbn [state]. rewrite (upd_nth _ _ _ _ _ G). destruct (Nat.eqb_spec (N.to_nat (u_pool u)) (N.to_nat n)) as [E'|].
    + exists p'. split; auto. intros i. rewrite E', G in G'. injection G' as <-. specialize (B i). specialize (PL i). lia.
    + exists p. auto.
  - intros m p i. cbn [state]. rewrite (upd_nth _ _ _ _ _ G). destruct (Nat.eqb_spec (N.to_nat m) (N.to_nat n)) as [E'|NE].
    + apply N2Nat.inj in E'. subst m. intros [= <-]. rewrite EQ. apply (E n old i G).
    + apply E.
Qed.
(** ** What the contract has more than it owes *)
Definition sur (i : bool) (c : ctr vars) : Z := (Z.of_N (c_bal c (at2 i (tokens (c_vars c)))) - Z.of_N (reserves i (c_vars c) + unclaimed i (c_vars c)))%Z.
Definition moved (c c' : ctr vars) (d : bool -> Z) : Prop :=
  W (c_vars c') /\ tokens (c_vars c') = tokens (c_vars c) /\ map p_rate (state (c_vars c')) = map p_rate (state (c_vars c)) /\
  (forall i, sur i c' = sur i c + d i)%Z /\ c_minted c' = c_minted c.
Lemma moved_trans c1 c2 c3 d e f : moved c1 c2 d -> moved c2 c3 e -> (forall i, f i = d i + e i)%Z -> moved c1 c3 f.
Proof. intros (_ & A2 & A3 & A4 & A5) (B1 & B2 & B3 & B4 & B5) E. split; [auto|]. split; [congruence|]. split; [congruence|]. split; [|congruence]. intros i. rewrite B4, A4, E. lia. Qed.
Lemma moved_refl c d : W (c_vars c) -> (forall i, d i = 0)%Z -> moved c c d.
Proof. intros HW E. split; [auto|]. split; [auto|]. split; [auto|]. split; [|auto]. intros i. rewrite E. lia. Qed.
Lemma moved_ext c c' d e : moved c c' d -> (forall i, e i = d i) -> moved c c' e.
Proof. intros (A1 & A2 & A3 & A4 & A5) E. split; [auto|]. split; [auto|]. split; [auto|]. split; [|auto]. intros i. rewrite E. auto. Qed.
(** ** Inversion of the helpers *)
Lemma get_pool_inv n e c p c' : get_pool n e c = Some (p, c') -> c' = c /\ nth_error (state (c_vars c)) (N.to_nat n) = Some p.
Proof. unfold get_pool. intros H. step H. simp H0. destruct (nth_error (state (c_vars c)) (N.to_nat n)); [|discriminate]. now injection H as <- <-. Qed.
Lemma set_pool_inv n p e c x c' : set_pool n p e c = Some (x, c') ->
  c' = mk_ctr (mk (tokens (c_vars c)) (upd (state (c_vars c)) (N.to_nat n) p) (volume (c_vars c)) (users (c_vars c))) (c_bal c) (c_sent c) (c_minted c).
Proof. unfold set_pool. intros H. step H. simp H0. now simp H. Qed.
Lemma get_user_inv e c u c' : get_user e c = Some (u, c') -> c' = c /\ find (e_user e) (users (c_vars c)) = Some u.
Proof. unfold get_user. intros H. step H. simp H0. step H. simp H0. destruct (find (e_user e) (users (c_vars c))); [|discriminate]. now injection H as <- <-. Qed.
Lemma set_user_inv u e c x c' : set_user u e c = Some (x, c') ->
  c' = mk_ctr (mk (tokens (c_vars c)) (state (c_vars c)) (volume (c_vars c)) (put (e_user e) u (users (c_vars c)))) (c_bal c) (c_sent c) (c_minted c).
Proof. unfold set_user. intros H. step H. simp H0. step H. simp H0. now simp H. Qed.
Lemma send_user_inv i n e c x c' : send_user i n e c = Some (x, c') -> 0 < n -> exists a, e_user e = Some a /\ n < 2 ^ 128 /\ n <= c_bal c (at2 i (tokens (c_vars c))) /\
  c' = mk_ctr (c_vars c) (fun x => if addr_eqb x (at2 i (tokens (c_vars c))) then c_bal c (at2 i (tokens (c_vars c))) - n else c_bal c x) (mk_payment a (at2 i (tokens (c_vars c))) n :: c_sent c) (c_minted c).
Proof.
  unfold send_user. intros H P. step H. simp H0. step H. simp H0. destruct (e_user e) as [a|]; [|discriminate]. exists a. split; auto. apply send_inv in H as [(Z & _)|(L & B & ->)]; [lia|]. split; [lia|]. auto.
Qed.
Lemma tok_ne v i : W v -> at2 (negb i) (tokens v) <> at2 i (tokens v).
Proof. intros (T & _). destruct i; cbn; congruence. Qed.
Lemma send_moved i n e c x c' : W (c_vars c) -> send_user i n e c = Some (x, c') -> 0 < n -> moved c c' (fun j => if Bool.eqb i j then - Z.of_N n else 0)%Z /\ c_vars c' = c_vars c.
Proof.
  intros HW H P. apply send_user_inv in H as (a & _ & _ & L & ->); auto. split; [|reflexivity]. split; [auto|]. split; [auto|]. split; [auto|]. split; [|auto].
  intros j. unfold sur. cbn [c_vars c_bal]. destruct (Bool.eqb_spec i j) as [<-|NE].
  - rewrite addr_eqb_refl. lia.
  - assert (j = negb i) by (destruct i, j; auto; congruence). subst j. destruct (addr_eqb_spec (at2 (negb i) (tokens (c_vars c))) (at2 i (tokens (c_vars c)))) as [E|]; [now apply tok_ne in E|]. lia.
Qed.
Lemma vars_eta v : mk (tokens v) (state v) (volume v) (users v) = v.
Proof. now destruct v. Qed.
Lemma W_pool_at v n p : W v -> nth_error (state v) n = Some p -> pool_ok p.
Proof. intros (_ & P & _) G. rewrite Forall_forall in P. apply P. eapply nth_error_In, G. Qed.
Lemma W_user_at v k u : W v -> find k (users v) = Some u -> user_ok (state v) u.
Proof. intros (_ & _ & U & _) F. eapply (find_Forall (user_ok (state v))); eauto. Qed.

(** ** The two entries of a token *)
Lemma earned1_le p u i e c n c' : pool_ok p -> (forall i, at2 i (u_last_paid u) <= at2 i (p_paid p)) -> earned1 p u i e c = Some (n, c') -> c' = c /\ n <= at2 i (p_paid p) - at2 i (p_claimed p).
Proof.
  intros PO LP H. destruct (PO i) as (B1 & B2 & B3 & B4). specialize (LP i). unfold earned1 in H. destruct (0 <? at2 i (u_bal u)); [|injection H as <- <-; split; [auto|lia]].
  step H. apply usub_inv in H0 as (_ & _ & ->); auto; [|lia]. match type of H with (if ?b then _ else _) _ _ = _ => destruct b end; [|injection H as <- <-; split; [auto|lia]].
  step H. apply umul_le in H0 as (_ & _ & ->). step H. apply umul_le in H0 as (_ & _ & ->). step H. apply uadd_same in H0 as ->. step H. apply udiv_inv in H0 as (_ & _ & ->).
  step H. apply usub_inv in H0 as (_ & -> & ->); auto; [|lia]. injection H as <- <-. split; auto. lia.
Qed.
Lemma sur_vars i t s vol l s' vol' l' bal snt mt : 
  sur i (mk_ctr (mk t s' vol' l') bal snt mt) = (sur i (mk_ctr (mk t s vol l) bal snt mt) + (Z.of_N (reserves i (mk t s vol l) + unclaimed i (mk t s vol l)) - Z.of_N (reserves i (mk t s' vol' l') + unclaimed i (mk t s' vol' l'))))%Z.
Proof. unfold sur. cbn [c_bal c_vars tokens]. lia. Qed.
Lemma sums_upd i t s vol l n p old vol' l' : nth_error s n = Some old ->
  (Z.of_N (reserves i (mk t s vol l) + unclaimed i (mk t s vol l)) - Z.of_N (reserves i (mk t (upd s n p) vol' l') + unclaimed i (mk t (upd s n p) vol' l')) =
   Z.of_N (at2 i (p_bal old)) - Z.of_N (at2 i (p_bal p)) + (Z.of_N (at2 i (p_paid old) - at2 i (p_claimed old)) - Z.of_N (at2 i (p_paid p) - at2 i (p_claimed p))))%Z.
Proof.
  intros G. unfold reserves, unclaimed. cbn [state]. pose proof (sum_upd (fun p => at2 i (p_bal p)) s n p old G) as E1. pose proof (sum_upd (fun p => at2 i (p_paid p) - at2 i (p_claimed p)) s n p old G) as E2.
  cbn beta in *. lia.
Qed.
Lemma payout1_moved i n e c x c' : W (c_vars c) -> payout1 i n e c = Some (x, c') ->
  (forall u p, find (e_user e) (users (c_vars c)) = Some u -> nth_error (state (c_vars c)) (N.to_nat (u_pool u)) = Some p -> n <= at2 i (p_paid p) - at2 i (p_claimed p)) ->
  moved c c' (fun _ => 0%Z).
Proof.
  intros HW H B. unfold payout1 in H. step H. apply get_user_inv in H0 as (-> & F). step H. apply get_pool_inv in H0 as (-> & G). rename x0 into u. rename x1 into p. specialize (B u p F G).
  pose proof (W_pool_at _ _ _ HW G) as PO. destruct (W_user_at _ _ _ HW F) as (p0 & G0 & UB). rewrite G in G0. injection G0 as <-.
  destruct c as [v bal snt mt]. destruct v as [t s vol l]. cbn [c_vars tokens state users volume] in *. step H.
  match type of H0 with _ = Some (_, ?cc) => assert (Q : exists p', nth_error (state (c_vars cc)) (N.to_nat (u_pool u)) = Some p' /\ p_paid p' = p_paid p /\ p_tot p' = p_tot p /\ p_bal p' = p_bal p /\ users (c_vars cc) = l /\ moved (mk_ctr (mk t s vol l) bal snt mt) cc (fun _ => 0%Z)) end.
  { destruct (N.ltb_spec 0 n) as [P|P].
    - step H0. apply uadd_inv in H1 as (-> & B2 & ->); [|destruct (PO i); lia|destruct (PO i); lia].
      step H0. apply set_pool_inv in H1. subst. cbn [c_vars tokens state users volume c_bal c_sent c_minted] in *.
      set (p' := mk_pool (p_bal p) (p_tot p) (p_rate p) (p_paid p) (upd2 i (at2 i (p_claimed p) + n) (p_claimed p))) in *.
      assert (PO' : pool_ok p'). { intros j. unfold p'. cbn [p_bal p_tot p_paid p_claimed]. rewrite at2_upd2. destruct (PO j) as (Q1 & Q2 & Q3 & Q4). destruct (PO i) as (R1 & R2 & R3 & R4). destruct (Bool.eqb_spec i j) as [<-|]; split; auto; split; auto; split; auto. lia. }
      assert (W' : W (mk t (upd s (N.to_nat (u_pool u)) p') vol l)) by (eapply Wpool; eauto; reflexivity).
      destruct (send_moved i n e _ _ _ (W' : W (c_vars (mk_ctr (mk t (upd s (N.to_nat (u_pool u)) p') vol l) bal snt mt))) H0 P) as (M & E). rewrite E. cbn [state users c_vars]. exists p'. split; [rewrite (upd_nth _ _ _ _ _ G), Nat.eqb_refl; reflexivity|]. split; auto. split; auto. split; auto. split; auto.
      eapply moved_trans; [|exact M|].
      + split; [exact W'|]. split; [reflexivity|]. split; [eapply upd_map; [exact G|reflexivity]|]. split; [|reflexivity]. intros j. rewrite (sur_vars j t s vol l). rewrite (sums_upd j t s vol l _ _ _ _ _ G).
        instantiate (1 := fun j => if Bool.eqb i j then Z.of_N n else 0%Z). cbn beta. unfold p'. cbn [p_bal p_paid p_claimed]. rewrite at2_upd2. destruct (PO j) as (Q1 & Q2 & Q3 & Q4). destruct (Bool.eqb_spec i j) as [<-|]; lia.
      + intros j. cbn beta. destruct (Bool.eqb i j); lia.
    - injection H0 as _ <-. exists p. split; auto. split; auto. split; auto. split; auto. split; auto. apply moved_refl; auto. }
  destruct Q as (p' & G' & E1 & E2 & E2' & E3 & M). apply set_user_inv in H. subst c'. eapply moved_trans; [exact M| |intros j; reflexivity].
  match type of M with moved _ ?cc _ => destruct cc as [v' bal' snt' mt'] end. destruct v' as [t' s' vol' l']. cbn [c_vars tokens state users volume c_bal c_sent c_minted] in *. subst l'. destruct M as (HW' & _).
  split; [|split; [reflexivity|]; split; [reflexivity|]; split; [|reflexivity]].
  - pose proof (Wstep t' s' vol' l (u_pool u) p' p' (e_user e)) as WS. specialize (WS (mk_user (u_pool u) (u_bal u) (upd2 i (at2 i (p_paid p)) (u_last_paid u)) (upd2 i (at2 i (p_tot p)) (u_last_tot u)) (u_unlock u))).
    rewrite (upd_same _ _ _ G') in WS. apply WS; auto.
    + eapply W_pool_at; eauto.
    + intros j. reflexivity.
    + intros j. cbn [u_bal u_last_paid u_last_tot]. rewrite E1, !at2_upd2. destruct (UB j) as (Q1 & Q2 & Q3). destruct (PO i) as (R1 & R2 & R3 & R4). destruct (Bool.eqb_spec i j) as [<-|]; split; auto; split; auto; lia.
    + intros j. rewrite F. cbn [u_bal]. unfold contrib. rewrite N.eqb_refl. reflexivity.
    + intros o. rewrite F. intros [= <-]. auto.
  - intros j. unfold sur. cbn. lia.
Qed.
Definition same_user (k : option addr) (c c' : ctr vars) : Prop :=
  forall u, find k (users (c_vars c)) = Some u -> exists u', find k (users (c_vars c')) = Some u' /\ u_pool u' = u_pool u /\ u_bal u' = u_bal u /\ u_unlock u' = u_unlock u.
Definition same_pools (c c' : ctr vars) : Prop :=
  forall n p, nth_error (state (c_vars c)) n = Some p -> exists p', nth_error (state (c_vars c')) n = Some p' /\ p_bal p' = p_bal p /\ p_tot p' = p_tot p /\ p_paid p' = p_paid p /\ p_rate p' = p_rate p.
Lemma payout1_same i n e c x c' : payout1 i n e c = Some (x, c') -> same_user (e_user e) c c' /\ same_pools c c' /\ (forall u p, find (e_user e) (users (c_vars c)) = Some u -> nth_error (state (c_vars c)) (N.to_nat (u_pool u)) = Some p ->
  exists u', find (e_user e) (users (c_vars c')) = Some u' /\ u_last_paid u' = upd2 i (at2 i (p_paid p)) (u_last_paid u) /\ u_last_tot u' = upd2 i (at2 i (p_tot p)) (u_last_tot u)).
Proof.
  intros H. unfold payout1 in H. step H. apply get_user_inv in H0 as (-> & F). step H. apply get_pool_inv in H0 as (-> & G). step H. apply set_user_inv in H. subst c'.
  split; [|split].
  - intros u F'. rewrite F in F'. injection F' as <-. cbn [c_vars users]. rewrite find_put. eexists. split; [reflexivity|]. auto.
  - intros m p G'. cbn [c_vars state]. destruct (0 <? n).
    + step H0. step H0. apply set_pool_inv in H1. subst. unfold send_user in H0. step H0. simp H1. step H0. simp H1. destruct (e_user e); [|discriminate].
      assert (Q : state (c_vars c0) = upd (state (c_vars c1)) (N.to_nat (u_pool x0)) (mk_pool (p_bal x1) (p_tot x1) (p_rate x1) (p_paid x1) (upd2 i x3 (p_claimed x1)))) by (apply send_inv in H0 as [(_ & ->)|(_ & _ & ->)]; reflexivity).
      apply uadd_same in H. subst c1. rewrite Q, (upd_nth _ _ _ _ _ G). destruct (Nat.eqb_spec m (N.to_nat (u_pool x0))) as [->|].
      * rewrite G in G'. injection G' as <-. eexists. split; [reflexivity|]. auto.
      * exists p. auto.
    + injection H0 as _ <-. exists p. auto.
  - intros u p F' G'. rewrite F in F'. injection F' as <-. rewrite G in G'. injection G' as <-. cbn [c_vars users]. rewrite find_put. eexists. split; [reflexivity|]. auto.
Qed.
Lemma same_user_trans k c1 c2 c3 : same_user k c1 c2 -> same_user k c2 c3 -> same_user k c1 c3.
Proof. intros A B u F. apply A in F as (u1 & F & E1 & E2 & E3). apply B in F as (u2 & F & E4 & E5 & E6). exists u2. split; auto. split; [congruence|]. split; congruence. Qed.
Lemma same_pools_trans c1 c2 c3 : same_pools c1 c2 -> same_pools c2 c3 -> same_pools c1 c3.
Proof. intros A B n p F. apply A in F as (u1 & F & E1 & E2 & E3 & E4). apply B in F as (u2 & F & F1 & F2 & F3 & F4). exists u2. split; auto. split; [congruence|]. split; [congruence|]. split; congruence. Qed.
Lemma payout_moved e c x c' : W (c_vars c) -> payout_ e c = Some (x, c') -> moved c c' (fun _ => 0%Z) /\ same_user (e_user e) c c' /\ same_pools c c'.
Proof.
  intros HW H. unfold payout_ in H. step H. apply get_user_inv in H0 as (-> & F). step H. apply get_pool_inv in H0 as (-> & G). rename x0 into u. rename x1 into p.
  pose proof (W_pool_at _ _ _ HW G) as PO. destruct (W_user_at _ _ _ HW F) as (p0 & G0 & UB). rewrite G in G0. injection G0 as <-.
  step H. apply earned1_le in H0 as (-> & L0); auto; [|intros j; apply UB]. step H. apply earned1_le in H0 as (-> & L1); auto; [|intros j; apply UB]. step H.
  assert (B0 : forall u' p', find (e_user e) (users (c_vars c)) = Some u' -> nth_error (state (c_vars c)) (N.to_nat (u_pool u')) = Some p' -> x0 <= at2 false (p_paid p') - at2 false (p_claimed p')).
  { intros u' p' F' G'. rewrite F in F'. injection F' as <-. rewrite G in G'. injection G' as <-. auto. }
  pose proof (payout1_moved _ _ _ _ _ _ HW H0 B0) as M0. destruct (payout1_same _ _ _ _ _ _ H0) as (SU0 & SP0 & _). destruct (SU0 u F) as (u1 & F1 & E1 & E2 & E3). destruct (SP0 _ p G) as (p1 & G1 & E4 & E5 & E6 & E7).
  assert (CL : at2 true (p_claimed p1) = at2 true (p_claimed p)).
  { clear - H0 F G G1. unfold payout1 in H0. step H0. apply get_user_inv in H as (-> & F'). rewrite F in F'. injection F' as <-. step H0. apply get_pool_inv in H as (-> & G'). rewrite G in G'. injection G' as <-. step H0. apply set_user_inv in H0. subst. cbn [c_vars state] in G1.
    destruct (0 <? x0); [|injection H as _ <-; rewrite G in G1; now injection G1 as <-]. step H. apply uadd_same in H0. subst. step H. apply set_pool_inv in H0. subst. unfold send_user in H. step H. simp H0. step H. simp H0. destruct (e_user e); [|discriminate].
    apply send_inv in H as [(_ & ->)|(_ & _ & ->)]; cbn [c_vars state] in G1; rewrite (upd_nth _ _ _ _ _ G), Nat.eqb_refl in G1; injection G1 as <-; reflexivity. }
  assert (B1 : forall u' p', find (e_user e) (users (c_vars c0)) = Some u' -> nth_error (state (c_vars c0)) (N.to_nat (u_pool u')) = Some p' -> x1 <= at2 true (p_paid p') - at2 true (p_claimed p')).
  { intros u' p' F' G'. rewrite F1 in F'. injection F' as <-. rewrite E1, G1 in G'. injection G' as <-. rewrite E6, CL. auto. }
  destruct M0 as (W0 & M0). pose proof (payout1_moved _ _ _ _ _ _ W0 H B1) as M1. destruct (payout1_same _ _ _ _ _ _ H) as (SU1 & SP1 & _).
  split; [|split; [eapply same_user_trans; eauto|eapply same_pools_trans; eauto]]. eapply moved_trans; [split; [exact W0|exact M0]|exact M1|]. intros j. reflexivity.
Qed.
Lemma put_put k u1 u2 l : put k u2 (put k u1 l) = put k u2 l.
Proof.
  induction l as [|(x, o) l IH]; cbn [put]; [destruct (key_eqb_spec k k); congruence|]. destruct (key_eqb_spec x k) as [->|N]; cbn [put].
  - destruct (key_eqb_spec k k); congruence.
  - destruct (key_eqb_spec x k); [congruence|]. now rewrite IH.
Qed.
Lemma enter_inv n e c x c' : W (c_vars c) -> enter n e c = Some (x, c') ->
  exists c0 u1, moved c c0 (fun _ => 0%Z) /\ same_user (e_user e) c c0 /\ same_pools c c0 /\
    c' = mk_ctr (mk (tokens (c_vars c0)) (state (c_vars c0)) (volume (c_vars c0)) (put (e_user e) u1 (users (c_vars c0)))) (c_bal c0) (c_sent c0) (c_minted c0) /\ u_pool u1 = n /\
    match find (e_user e) (users (c_vars c0)) with Some o => u_bal u1 = u_bal o /\ (u_pool o = n \/ u_bal o = (0, 0)) | None => u_bal u1 = (0, 0) end.
Proof.
  intros HW H. unfold enter in H. step H. simp H0. step H. simp H0. destruct (find (e_user e) (users (c_vars c))) as [u|] eqn:F.
  - step H. match type of H0 with _ = Some (_, ?cc) => assert (Q : moved c cc (fun _ => 0%Z) /\ same_user (e_user e) c cc /\ same_pools c cc /\ (u_pool u = n \/ u_bal u = (0, 0))) end.
    { destruct ((0 <? fst (u_bal u)) || (0 <? snd (u_bal u))) eqn:Z.
      - step H0. simp H1. apply N.eqb_eq in E. apply payout_moved in H0 as (M & S1 & S2); auto.
      - injection H0 as _ <-. split; [apply moved_refl; auto|]. split; [intros v V; exists v; auto|]. split; [intros m p G; exists p; auto|]. right. apply orb_false_iff in Z as (Z1 & Z2). apply N.ltb_ge in Z1, Z2.
        destruct (u_bal u). cbn in *. f_equal; lia. }
    destruct Q as (M & SU & SP & D). step H. apply get_user_inv in H1 as (-> & F1). apply set_user_inv in H. subst c'. destruct (SU u F) as (u1 & F1' & E1 & E2 & _). rewrite F1' in F1. injection F1 as <-.
    eexists. eexists. split; [exact M|]. split; auto. split; auto. split; [reflexivity|]. split; [reflexivity|]. rewrite F1'. split; [reflexivity|]. rewrite E1, E2. auto.
  - apply set_user_inv in H. subst c'. exists c. eexists. split; [apply moved_refl; auto|]. split; [intros v V; exists v; auto|]. split; [intros m p G; exists p; auto|]. split; [reflexivity|]. split; [reflexivity|]. rewrite F. reflexivity.
Qed.
Lemma add_moved i n amount e c x c' : W (c_vars c) -> add_liquid_ i n amount e c = Some (x, c') -> amount < 2 ^ 256 -> moved c c' (fun j => if Bool.eqb i j then - Z.of_N amount else 0)%Z.
Proof.
  intros HW H AB. unfold add_liquid_ in H. step H. simp H0. step H. simp H0. step H. apply enter_inv in H0 as (c1 & u1 & M & SU & SP & -> & UP & UF); auto. clear E.
  step H. apply get_pool_inv in H0 as (-> & G). step H. apply get_user_inv in H0 as (-> & F). rename x0 into p. cbn [c_vars state users] in *. rewrite find_put in F. injection F as <-. step H. simp H0.
  pose proof M as (W1 & _). pose proof (W_pool_at _ _ _ W1 G) as PO.
  assert (UB : forall j, at2 j (u_bal u1) < 2 ^ 256).
  { intros j. destruct (find (e_user e) (users (c_vars c1))) as [o|] eqn:F; [|rewrite UF; now destruct j]. destruct UF as (-> & _). destruct (W_user_at _ _ _ W1 F) as (pp & GG & Q). apply Q. }
  step H. destruct (PO i) as (B1 & B2 & B3 & B4). apply uadd_inv in H0 as (-> & C1 & ->); auto. step H. apply uadd_inv in H0 as (-> & C2 & ->); auto. step H. apply uadd_inv in H0 as (-> & C3 & ->); auto. step H. apply uadd_same in H0. subst. cbv zeta in H.
  step H. apply set_pool_inv in H0. subst. apply set_user_inv in H. subst. eapply moved_trans; [exact M| |intros j; symmetry; apply Z.add_0_l].
  destruct c1 as [v' bal' snt' mt']. destruct v' as [t s vol l]. cbn [c_vars tokens state users volume c_bal c_sent c_minted] in *. rewrite put_put.
  split; [|split; [reflexivity|]; split; [eapply upd_map; [exact G|reflexivity]|]; split; [|reflexivity]].
  - cbn [c_vars]. eapply Wstep; eauto.
    + intros j. cbn [p_bal p_tot p_paid p_claimed]. rewrite !at2_upd2. destruct (PO j) as (Q1 & Q2 & Q3 & Q4). destruct (Bool.eqb i j); auto.
    + intros j. reflexivity.
    + intros j. cbn [u_bal u_last_paid u_last_tot p_paid]. rewrite !at2_upd2. destruct (PO j) as (Q1 & Q2 & Q3 & Q4). specialize (UB j). destruct (Bool.eqb i j); split; auto; split; auto; lia.
    + intros j. cbn [u_bal p_tot]. rewrite !at2_upd2. destruct (find (e_user e) l) as [o|].
      * destruct UF as (E1 & [E2|E2]); unfold contrib; [rewrite <- E2, N.eqb_refl|]; rewrite E1.
        -- destruct (Bool.eqb_spec i j) as [<-|]; lia.
        -- rewrite E2. assert (Z : forall q : bool, at2 q (0, 0) = 0) by (now intros []). rewrite !Z. destruct (u_pool o =? u_pool u1); destruct (Bool.eqb_spec i j) as [<-|]; lia.
      * rewrite UF. assert (Z : forall q : bool, at2 q (0, 0) = 0) by (now intros []). rewrite !Z. destruct (Bool.eqb_spec i j) as [<-|]; lia.
    + intros o F. rewrite F in UF. apply UF.
  - intros j. rewrite (sur_vars j t s vol l). rewrite (sums_upd j t s vol l _ _ _ _ _ G). cbn [p_bal p_paid p_claimed]. rewrite at2_upd2. destruct (Bool.eqb_spec i j) as [<-|]; lia.
Qed.
(** ** Removing liquidity *)
Lemma shares_inv p i amount e c rt c' : shares p i amount e c = Some (rt, c') -> amount < 2 ^ 256 -> pool_ok p -> c' = c /\ fst rt < 2 ^ 256 /\ snd rt < 2 ^ 256 /\ 0 < at2 i (p_tot p).
Proof.
  intros H AB PO. assert (M0 : 0 < 2 ^ 256) by reflexivity. destruct (PO i) as (A1 & A2 & A3 & A4). destruct (PO (negb i)) as (B1 & B2 & B3 & B4).
  assert (DV : forall x y, x < 2 ^ 256 -> y <> 0 -> x / y < 2 ^ 256). { intros x y L NZ. eapply N.le_lt_trans; [apply N.div_le_upper_bound with (q := x); [auto|]|exact L]. destruct y; [congruence|]. nia. }
  unfold shares in H. cbv zeta in H. step H. apply umul_le in H0 as (_ & XB & ->). step H. apply udiv_inv in H0 as (NZ & -> & ->). assert (TP : 0 < at2 i (p_tot p)) by lia.
  assert (RB : x / at2 i (p_tot p) < 2 ^ 256) by (apply DV; auto).
  destruct (_ <? at2 i (p_tot p)).
  - destruct (_ <? at2 (negb i) (p_bal p)).
    + step H. apply usub_inv in H0 as (_ & _ & ->); auto. step H. apply umul_le in H0 as (_ & YB & ->). step H. apply udiv_inv in H0 as (_ & -> & ->). injection H as <- <-. split; auto. split; auto. split; [|auto]. apply DV; auto.
    + injection H as <- <-. auto.
  - destruct (_ <? at2 (negb i) (p_tot p)); injection H as <- <-; auto.
Qed.
Definition out_of (i : bool) (rt : N * N) : N2 := upd2 (negb i) (snd rt) (upd2 i (fst rt) (0, 0)).
Lemma at2_out i j rt : at2 j (out_of i rt) = if Bool.eqb i j then fst rt else snd rt.
Proof. unfold out_of. now destruct i, j. Qed.
(** everything there is to know of a removal *)
Lemma rem_inv i amount b e c out c' : W (c_vars c) -> rem_liquid_ i amount b e c = Some (out, c') ->
  (forall u, find (e_user e) (users (c_vars c)) = Some u -> amount <= at2 i (u_bal u)) ->
  exists u p rt, find (e_user e) (users (c_vars c)) = Some u /\ nth_error (state (c_vars c)) (N.to_nat (u_pool u)) = Some p /\ shares p i amount e c = Some (rt, c) /\ out = out_of i rt /\
    fst rt <= at2 i (p_bal p) /\ snd rt <= at2 (negb i) (p_bal p) /\ amount <= at2 i (u_bal u) /\ amount <= at2 i (p_tot p) /\
    c_vars c' = mk (tokens (c_vars c)) (upd (state (c_vars c)) (N.to_nat (u_pool u))
      (mk_pool (upd2 (negb i) (at2 (negb i) (p_bal p) - snd rt) (upd2 i (at2 i (p_bal p) - fst rt) (p_bal p))) (upd2 i (at2 i (p_tot p) - amount) (p_tot p)) (p_rate p) (p_paid p) (p_claimed p)))
      (volume (c_vars c)) (put (e_user e) (mk_user (u_pool u) (upd2 i (at2 i (u_bal u) - amount) (u_bal u)) (u_last_paid u) (u_last_tot u) (u_unlock u)) (users (c_vars c))) /\
    (exists c1 c2, (if (0 <? fst rt) && b then send_user i (fst rt) else ret tt) e c = Some (tt, c1) /\ (if (0 <? snd rt) && b then send_user (negb i) (snd rt) else ret tt) e c1 = Some (tt, c2) /\
       c_bal c' = c_bal c2 /\ c_sent c' = c_sent c2 /\ c_minted c' = c_minted c2).
Proof.
  intros HW H AL. unfold rem_liquid_ in H. step H. apply get_user_inv in H0 as (-> & F). step H. apply get_pool_inv in H0 as (-> & G). rename x into u. rename x0 into p. specialize (AL u F).
  pose proof (W_pool_at _ _ _ HW G) as PO. destruct (W_user_at _ _ _ HW F) as (p0 & G0 & UB). rewrite G in G0. injection G0 as <-. destruct (UB i) as (UBi & _).
  assert (AB : amount < 2 ^ 256) by lia. step H. destruct (shares_inv _ _ _ _ _ _ _ H0 AB PO) as (-> & R1 & R2 & TP). rename x into rt. cbv zeta in H.
  destruct (PO i) as (A1 & A2 & A3 & A4). destruct (PO (negb i)) as (B1 & B2 & B3 & B4).
  assert (SV : forall q j n c1 x c2, (if q : bool then send_user j n else ret tt) e c1 = Some (x, c2) -> c_vars c2 = c_vars c1).
  { intros q j n c1 x c2 S. destruct q; [|now injection S as _ <-]. unfold send_user in S. step S. simp H1. step S. simp H1. destruct (e_user e); [|discriminate]. apply send_inv in S as [(_ & ->)|(_ & _ & ->)]; reflexivity. }
  step H. destruct x. pose proof H1 as S1. apply SV in S1. rename H1 into D1. step H. apply usub_inv in H1 as (L1 & -> & ->); auto.
  step H. destruct x. pose proof H1 as S2. apply SV in S2. rename H1 into D2. step H. apply usub_inv in H1 as (L2 & -> & ->); auto.
  step H. apply usub_inv in H1 as (L3 & -> & ->); auto. step H. apply usub_inv in H1 as (L4 & -> & ->); auto.
  step H. apply set_pool_inv in H1. subst. step H. apply set_user_inv in H1. subst. injection H as <- <-. cbn [c_vars state users volume tokens]. rewrite S2, S1.
  exists u, p, rt. split; auto. split; auto. split; auto. split; auto. split; auto. split; auto. split; auto. split; auto. split; [reflexivity|]. exists c0. eexists. split; [exact D1|]. split; [exact D2|]. auto.
Qed.
Lemma maybe_send_moved i n b e c x c' : W (c_vars c) -> (if (0 <? n) && b then send_user i n else ret tt) e c = Some (x, c') -> moved c c' (fun j => if b && Bool.eqb i j then - Z.of_N n else 0)%Z.
Proof.
  intros HW H. destruct (N.ltb_spec 0 n); cbn [andb] in H; [destruct b|].
  - now apply send_moved in H as (M & _).
  - injection H as _ <-. now apply moved_refl.
  - injection H as _ <-. apply moved_refl; auto. intros j. assert (n = 0) by lia. subst. now destruct (b && Bool.eqb i j).
Qed.
Lemma rem_moved i amount b e c out c' : W (c_vars c) -> rem_liquid_ i amount b e c = Some (out, c') ->
  (forall u, find (e_user e) (users (c_vars c)) = Some u -> amount <= at2 i (u_bal u)) ->
  moved c c' (fun j => if b then 0 else Z.of_N (at2 j out))%Z /\ (forall j, at2 j out < 2 ^ 256) /\
  (forall u, find (e_user e) (users (c_vars c)) = Some u -> exists u', find (e_user e) (users (c_vars c')) = Some u' /\ u_pool u' = u_pool u /\ u_unlock u' = u_unlock u /\ u_bal u' = upd2 i (at2 i (u_bal u) - amount) (u_bal u)).
Proof.
  intros HW H AL. pose proof H as H'. apply rem_inv in H' as (u & p & rt & F & G & SH & -> & L1 & L2 & L3 & L4 & V & c1 & c2 & D1 & D2 & EB & ES & EM); auto.
  pose proof (W_pool_at _ _ _ HW G) as PO. destruct (W_user_at _ _ _ HW F) as (p0 & G0 & UB). rewrite G in G0. injection G0 as <-. destruct (UB i) as (UBi & _).
  destruct (shares_inv _ _ _ _ _ _ _ SH ltac:(lia) PO) as (_ & R1 & R2 & TP).
  split; [|split].
  - pose proof (maybe_send_moved _ _ _ _ _ _ _ HW D1) as M1. pose proof M1 as (W1 & _). pose proof (maybe_send_moved _ _ _ _ _ _ _ W1 D2) as M2.
    assert (V1 : c_vars c1 = c_vars c) by (destruct (_ && _); [|now injection D1 as <-]; unfold send_user in D1; step D1; simp H0; step D1; simp H0; destruct (e_user e); [|discriminate]; apply send_inv in D1 as [(_ & ->)|(_ & _ & ->)]; reflexivity).
    assert (V2 : c_vars c2 = c_vars c) by (destruct (_ && _) in D2; [|now injection D2 as <-]; unfold send_user in D2; step D2; simp H0; step D2; simp H0; destruct (e_user e); [|discriminate]; apply send_inv in D2 as [(_ & ->)|(_ & _ & ->)]; exact V1).
    eapply (moved_trans _ _ _ _ (fun j => Z.of_N (if Bool.eqb i j then fst rt else snd rt))); [eapply moved_trans; [exact M1|exact M2|intros j; reflexivity]| |].
    2: { intros j. rewrite at2_out. cbn beta. destruct b, i, j; cbn; lia. }
    destruct c2 as [v2 bal2 snt2 mt2]. destruct c' as [v' bal' snt' mt']. cbn [c_vars c_bal c_sent c_minted] in *. subst. destruct (c_vars c) as [t s vol l]. cbn [tokens state volume users] in *. clear H.
    split; [|split; [reflexivity|]; split; [eapply upd_map; [exact G|reflexivity]|]; split; [|reflexivity]].
    + cbn [c_vars]. eapply Wstep; eauto.
      * intros j. cbn [p_bal p_tot p_paid p_claimed]. rewrite !at2_upd2. destruct (PO j) as (Q1 & Q2 & Q3 & Q4). destruct i, j; cbn [Bool.eqb negb at2] in *; (split; [lia|]); (split; [lia|]); (split; [lia|]); lia.
      * intros j. reflexivity.
      * intros j. cbn [u_bal u_last_paid u_last_tot p_paid]. rewrite !at2_upd2. destruct (UB j) as (Q1 & Q2 & Q3). destruct (Bool.eqb_spec i j) as [<-|]; split; auto; lia.
      * intros j. rewrite F. cbn [u_bal p_tot]. unfold contrib. rewrite N.eqb_refl, !at2_upd2. destruct (Bool.eqb_spec i j) as [<-|]; lia.
      * intros o F'. rewrite F in F'. injection F' as <-. auto.
    + intros j. rewrite (sur_vars j t s vol l). rewrite (sums_upd j t s vol l _ _ _ _ _ G). cbn [p_bal p_paid p_claimed]. rewrite !at2_upd2. destruct i, j; cbn in *; lia.
  - intros j. rewrite at2_out. destruct (Bool.eqb i j); auto.
  - intros u' F'. rewrite F in F'. injection F' as <-. rewrite V. cbn [users]. rewrite find_put. eexists. split; [reflexivity|]. auto.
Qed.
Lemma rem_liquid_moved i amount dry e c out c' : W (c_vars c) -> rem_liquid i amount dry e c = Some (out, c') ->
  moved c c' (fun j => if dry then Z.of_N (at2 j out) else 0)%Z /\ (forall j, at2 j out < 2 ^ 256).
Proof.
  intros HW H. unfold rem_liquid in H. step H. simp H0. step H. apply get_user_inv in H0 as (-> & F). step H.
  assert (c0 = c) by (destruct dry; [now injection H0 as _ <-|]; step H0; simp H1; now simp H0). subst c0. clear H0. step H. simp H0. apply N.leb_le in E0.
  apply rem_moved in H as (M & B & _); auto; [|intros u' F'; rewrite F in F'; injection F' as <-; auto]. split; [|auto]. eapply moved_ext; [exact M|]. intros j. now destruct dry.
Qed.
Lemma each_moved (s : bool) f i out e c out' c' : W (c_vars c) -> each f i out e c = Some (out', c') -> (forall j, at2 j out < 2 ^ 256) ->
  (forall n c r c', W (c_vars c) -> (forall u, find (e_user e) (users (c_vars c)) = Some u -> n <= at2 i (u_bal u)) -> f i n e c = Some (r, c') ->
     moved c c' (fun j => if s then Z.of_N (at2 j r) else 0)%Z /\ (forall j, at2 j r < 2 ^ 256)) ->
  moved c c' (fun j => if s then Z.of_N (at2 j out') - Z.of_N (at2 j out) else 0)%Z /\ (forall j, at2 j out' < 2 ^ 256).
Proof.
  intros HW H OB FS. unfold each in H. step H. apply get_user_inv in H0 as (-> & F). cbv zeta in H. destruct (N.ltb_spec 0 (at2 i (u_bal x))).
  - step H. apply FS in H1 as (M & RB); auto; [|intros u' F'; rewrite F in F'; injection F' as <-; lia]. step H. apply uadd_inv in H1 as (-> & B1 & ->); [|apply (OB false)|apply (RB false)]. step H. apply uadd_inv in H1 as (-> & B2 & ->); [|apply (OB true)|apply (RB true)].
    injection H as <- <-. split; [|intros []; auto]. eapply moved_ext; [exact M|]. intros j. destruct s; [|reflexivity]. destruct j; cbn [at2 fst snd]; lia.
  - injection H as <- <-. split; auto. apply moved_refl; auto. intros j. destruct s; lia.
Qed.
Lemma rem_all_moved dry e c out c' : W (c_vars c) -> rem_all_liquid dry e c = Some (out, c') -> moved c c' (fun j => if dry then Z.of_N (at2 j out) else 0)%Z.
Proof.
  intros HW H. unfold rem_all_liquid in H. step H. apply payout_moved in H0 as (M & _); auto. pose proof M as (W1 & _). step H.
  assert (FS : forall i n c r c', W (c_vars c) -> (forall u, find (e_user e) (users (c_vars c)) = Some u -> n <= at2 i (u_bal u)) -> rem_liquid i n dry e c = Some (r, c') ->
     moved c c' (fun j => if dry then Z.of_N (at2 j r) else 0)%Z /\ (forall j, at2 j r < 2 ^ 256)) by (intros; eapply rem_liquid_moved; eauto).
  apply (each_moved dry) in H0 as (M1 & B1); auto; [|now intros []|exact (FS false)]. pose proof M1 as (W2 & _). apply (each_moved dry) in H as (M2 & B2); auto; [|exact (FS true)].
  eapply moved_trans; [exact M|eapply moved_trans; [exact M1|exact M2|intros j; reflexivity]|]. intros j. destruct dry; [|reflexivity]. destruct j; cbn [at2 fst snd]; lia.
Qed.
Lemma switch_moved n e c x c' : W (c_vars c) -> switch_pool n e c = Some (x, c') -> moved c c' (fun j => 0)%Z.
Proof.
  intros HW H. unfold switch_pool in H. step H. simp H0. step H. simp H0. step H. apply get_user_inv in H0 as (-> & F). step H. simp H0. step H. simp H0. step H. apply payout_moved in H0 as (M & _); auto. pose proof M as (W1 & _).
  assert (FS : forall i n c r c', W (c_vars c) -> (forall u, find (e_user e) (users (c_vars c)) = Some u -> n <= at2 i (u_bal u)) -> rem_liquid_ i n false e c = Some (r, c') ->
     moved c c' (fun j => if true then Z.of_N (at2 j r) else 0)%Z /\ (forall j, at2 j r < 2 ^ 256)) by (intros i n0 c1 r c2 W' B R; apply rem_moved in R as (Q1 & Q2 & _); auto).
  step H. apply (each_moved true) in H0 as (M1 & B1); auto; [|now intros []|exact (FS false)]. pose proof M1 as (W2 & _). step H. apply (each_moved true) in H0 as (M2 & B2); auto; [|exact (FS true)]. pose proof M2 as (W3 & _).
  step H. match type of H0 with (if _ then _ else _) ?ee ?ca = Some (_, ?cb) => assert (M3 : moved ca cb (fun j => if j then 0 else - Z.of_N (fst x5))%Z) end.
  { destruct (N.ltb_spec 0 (fst x5)); [apply add_moved in H0; auto; [eapply moved_ext; [exact H0|]; now intros []|apply (B2 false)]|]. injection H0 as _ <-. apply moved_refl; auto. intros []; lia. }
  pose proof M3 as (W4 & _). match type of H with (if _ then _ else _) ?ee ?ca = Some (_, ?cb) => assert (M4 : moved ca cb (fun j => if j then - Z.of_N (snd x5) else 0)%Z) end.
  { destruct (N.ltb_spec 0 (snd x5)); [apply add_moved in H; auto; [eapply moved_ext; [exact H|]; now intros []|apply (B2 true)]|]. injection H as _ <-. apply moved_refl; auto. intros []; lia. }
  eapply moved_trans; [exact M|eapply moved_trans; [exact M1|eapply moved_trans; [exact M2|eapply moved_trans; [exact M3|exact M4|intros j; reflexivity]|intros j; reflexivity]|intros j; reflexivity]|].
  intros []; cbn [at2 fst snd]; lia.
Qed.
(** ** Trading *)
Lemma quote_inv p i a e c t fee g c' : quote p i a e c = Some ((t, fee, g), c') -> pool_ok p -> a < 2 ^ 256 -> p_rate p < 2 ^ 64 ->
  c' = c /\ t <= at2 (negb i) (p_bal p) /\ fee <= t /\ g = t - fee /\
  (at2 i (p_bal p) * at2 (negb i) (p_bal p) < 2 ^ 256 -> t = at2 (negb i) (p_bal p) - at2 i (p_bal p) * at2 (negb i) (p_bal p) / (at2 i (p_bal p) + a)) /\ (0 < t -> 1 <= fee) /\
  0 < at2 i (p_bal p) + a /\ (t * p_rate p < 2 ^ 256 -> fee < t -> t * p_rate p < fee * 2 ^ 64).
Proof.
  intros H PO AB RB. destruct (PO i) as (A1 & _). destruct (PO (negb i)) as (B1 & _). unfold quote in H. cbv zeta in H. step H. pose proof H0 as MU. apply umul_le in MU as (XL & XB & ->).
  step H. apply uadd_inv in H1 as (-> & SB & ->); auto. step H. apply udiv_inv in H1 as (NZ & -> & ->).
  assert (QB : x / (at2 i (p_bal p) + a) < 2 ^ 256). { eapply N.le_lt_trans; [|exact XB]. apply N.div_le_upper_bound; auto. destruct (at2 i (p_bal p) + a); [congruence|]. nia. }
  step H. apply usub_inv in H1 as (L & -> & ->); auto. step H. pose proof H1 as MU2. apply umul_le in H1 as (FL & FB & ->). step H. unfold ushr in H1. simp H1. step H.
  assert (B2 : x0 / 2 ^ FRACT_BITS < 2 ^ 256). { eapply N.le_lt_trans; [|exact FB]. apply N.div_le_upper_bound; [discriminate|]. change (2 ^ FRACT_BITS) with (2 ^ 64). set (z := 2 ^ 64). assert (1 <= z) by (unfold z; lia). clearbody z. nia. }
  apply uadd_inv in H1 as (-> & _ & ->); auto; [|reflexivity]. step H. apply usub_inv in H1 as (L2 & -> & ->); [| |].
  - assert (DW : x0 < (x0 / 2 ^ FRACT_BITS + 1) * 2 ^ 64). { pose proof (N.mul_succ_div_gt x0 (2 ^ 64) ltac:(discriminate)) as G. change (2 ^ FRACT_BITS) with (2 ^ 64). rewrite N.mul_comm, N.add_1_r. exact G. }
    revert L2 H DW. generalize (x0 / 2 ^ FRACT_BITS) as w. remember (x / (at2 i (p_bal p) + a)) as dv eqn:DV. intros w L2 H DW. injection H as <- <- <- <-. split; auto. split; [lia|]. split; [lia|]. split; [auto|].
    split; [intros PB; apply umul_inv in H0 as (-> & _); auto; now rewrite DV|]. split; [lia|]. split; [lia|]. intros TB LT. apply umul_inv in MU2 as (E & _); auto. rewrite <- E.
    assert (ME : N.min (w + 1) (at2 (negb i) (p_bal p) - dv) = w + 1) by lia. rewrite ME. exact DW.
  - eapply N.le_lt_trans; [apply N.le_sub_l|exact B1].
  - eapply N.le_lt_trans; [apply N.le_min_r|]. eapply N.le_lt_trans; [apply N.le_sub_l|exact B1].
Qed.
Lemma best_inv i a e c : forall l n acc o c', best l n i a acc e c = Some (o, c') -> Forall pool_ok l -> Forall (fun p => p_rate p < 2 ^ 64) l -> a < 2 ^ 256 ->
  c' = c /\ (o = acc \/ exists m p q, o = Some (n + N.of_nat m, q) /\ nth_error l m = Some p /\ quote p i a e c = Some (q, c) /\ 0 < snd q).
Proof.
  induction l as [|p l IH]; intros n acc o c' H PO RB AB; cbn [best] in H; [injection H as <- <-; auto|]. inversion PO; subst. inversion RB; subst. step H.
  assert (Q : c0 = c /\ (x = acc \/ exists q, x = Some (n, q) /\ quote p i a e c = Some (q, c) /\ 0 < snd q)).
  { destruct (0 <? at2 (negb i) (p_bal p)); [|injection H0 as <- <-; auto]. step H0. destruct x0 as ((t, fee), g). pose proof H1 as Q. apply quote_inv in Q as (-> & _); auto. injection H0 as <- <-. split; auto. cbn [snd].
    destruct (N.ltb_spec (match acc with Some (_, (_, _, g0)) => g0 | None => 0 end) g) as [L|L]; [|auto]. right. exists (t, fee, g). split; auto. split; auto. cbn. lia. }
  destruct Q as (-> & Q). apply IH in H as (-> & [->|(m & p' & q & -> & G & QQ & P)]); auto; (split; [reflexivity|]).
  - destruct Q as [->|(q & -> & QQ & P)]; auto. right. exists 0%nat, p, q. cbn [nth_error]. rewrite N.add_0_r. auto.
  - right. exists (S m), p', q. split; [f_equal; f_equal; lia|]. auto.
Qed.
(** one chunk of a trade, for the pool that takes it *)
Definition taken (i : bool) (a t fee : N) (p p' : pool) : Prop :=
  p_tot p' = p_tot p /\ p_rate p' = p_rate p /\ p_claimed p' = p_claimed p /\ at2 i (p_paid p') = at2 i (p_paid p) /\
  at2 i (p_bal p') = at2 i (p_bal p) + a /\ t <= at2 (negb i) (p_bal p) /\ at2 (negb i) (p_bal p') = at2 (negb i) (p_bal p) - t /\ at2 (negb i) (p_paid p') = at2 (negb i) (p_paid p) + fee.
Definition rates_ok (v : vars) : Prop := Forall (fun p => p_rate p < 2 ^ 64) (state v).
Lemma loop_ind (i : bool) (chunk : N) (e : env) (P : nat -> N -> N -> ctr vars -> N -> N -> ctr vars -> Prop) :
  (forall n left total c, P n left total c left total c) ->
  (forall n left total c a t fee g m p p' c1 left' total' c', W (c_vars c) -> rates_ok (c_vars c) -> left < 2 ^ 256 -> total < 2 ^ 256 -> a = N.min chunk left ->
     nth_error (state (c_vars c)) m = Some p -> quote p i a e c = Some ((t, fee, g), c) -> 0 < g -> g = t - fee -> fee <= t -> taken i a t fee p p' ->
     tokens (c_vars c1) = tokens (c_vars c) -> state (c_vars c1) = upd (state (c_vars c)) m p' -> users (c_vars c1) = users (c_vars c) -> c_bal c1 = c_bal c -> c_sent c1 = c_sent c -> c_minted c1 = c_minted c ->
     moved c c1 (fun j => if Bool.eqb i j then - Z.of_N a else Z.of_N g)%Z ->
     P n (left - a) (total + g) c1 left' total' c' -> P (S n) left total c left' total' c') ->
  (forall n left total c left' total' c', P n left total c left' total' c' -> P (S n) left total c left' total' c') ->
  forall n left total c left' total' c', W (c_vars c) -> rates_ok (c_vars c) -> left < 2 ^ 256 -> total < 2 ^ 256 -> trade_loop n i chunk left total e c = Some ((left', total'), c') -> P n left total c left' total' c'.
Proof.
  intros P0 PS PN. induction n as [|n IH]; intros left total c left' total' c' HW RO LB TB H; cbn [trade_loop] in H; [injection H as <- <- <-; apply P0|].
  destruct (0 <? left); [|injection H as <- <- <-; apply P0]. cbv zeta in H. step H. simp H0. step H.
  pose proof HW as (_ & PO & _). apply best_inv in H0 as (-> & B); auto; [|lia]. destruct x as [(m, ((t, fee), g))|]; [|apply PN, IH; auto].
  destruct B as [|(k & p & q & E & G & Q & GP)]; [discriminate|]. injection E as -> <-. cbn [snd] in GP. rewrite ?N.add_0_l in H.
  assert (PP : pool_ok p) by (eapply W_pool_at; eauto). assert (RR : p_rate p < 2 ^ 64) by (unfold rates_ok in RO; rewrite Forall_forall in RO; apply RO; eapply nth_error_In, G).
  pose proof Q as QI. apply quote_inv in QI as (_ & L1 & L2 & L3 & _ & _ & _ & _); auto; [|lia].
  step H. apply get_pool_inv in H0 as (-> & G'). rewrite Nat2N.id, G in G'. injection G' as <-. destruct (PP i) as (A1 & A2 & A3 & A4). destruct (PP (negb i)) as (B1 & B2 & B3 & B4).
  step H. apply uadd_inv in H0 as (-> & C1 & ->); auto; [|lia]. step H. apply uadd_same in H0. subst. step H. apply uadd_inv in H0 as (-> & C2 & ->); auto; [|lia].
  step H. apply usub_inv in H0 as (_ & -> & ->); auto; [|lia]. step H. apply uadd_inv in H0 as (-> & C3 & ->); auto; [|lia]. step H. apply usub_inv in H0 as (_ & -> & ->); auto; [|lia].
  step H. simp H0. rewrite Nat2N.id in H.
  set (p' := mk_pool (upd2 (negb i) (at2 (negb i) (p_bal p) - t) (upd2 i (at2 i (p_bal p) + N.min chunk left) (p_bal p))) (p_tot p) (p_rate p) (upd2 (negb i) (at2 (negb i) (p_paid p) + fee) (p_paid p)) (p_claimed p)) in *.
  match type of H with trade_loop _ _ _ _ _ _ ?cc = _ => set (c1 := cc) in * end.
  assert (TK : taken i (N.min chunk left) t fee p p'). { unfold taken, p'. cbn [p_tot p_rate p_claimed p_paid p_bal]. destruct i; cbn; auto 10. }
  assert (MV : moved c c1 (fun j => if Bool.eqb i j then - Z.of_N (N.min chunk left) else Z.of_N (t - fee))%Z).
  { destruct c as [v bal snt mt]. destruct v as [tk s vol l]. cbn [c_vars tokens state users volume c_bal c_sent c_minted] in *. unfold c1.
    split; [|split; [reflexivity|]; split; [eapply upd_map; [exact G|reflexivity]|]; split; [|reflexivity]].
    - cbn [c_vars]. rewrite <- (Nat2N.id k). apply (Wpool tk s vol l (N.of_nat k) p p'); auto.
      + rewrite Nat2N.id. exact G.
      + intros j. unfold p'. cbn [p_tot p_rate p_claimed p_paid p_bal]. destruct (PP j) as (Q1 & Q2 & Q3 & Q4). destruct i, j; cbn [Bool.eqb negb at2 upd2 fst snd] in *; (split; [lia|]); (split; [lia|]); (split; [lia|]); lia.
      + intros j. unfold p'. cbn [p_paid]. destruct i, j; cbn; lia.
    - intros j. rewrite (sur_vars j tk s vol l). rewrite (sums_upd j tk s vol l _ _ _ _ _ G). unfold p'. cbn [p_bal p_paid p_claimed]. destruct (PP j) as (Q1 & Q2 & Q3 & Q4). destruct i, j; cbn [Bool.eqb negb at2 upd2 fst snd] in *; lia. }
  eapply (PS n left total c (N.min chunk left) t fee (t - fee) k p p' c1); auto. apply IH; auto; [apply MV| |lia].
  unfold rates_ok, c1. cbn [c_vars state]. apply upd_Forall; auto.
Qed.
Lemma loop_moved i chunk e n left total c left' total' c' : W (c_vars c) -> rates_ok (c_vars c) -> left < 2 ^ 256 -> total < 2 ^ 256 -> trade_loop n i chunk left total e c = Some ((left', total'), c') ->
  W (c_vars c) -> moved c c' (fun j => if Bool.eqb i j then Z.of_N left' - Z.of_N left else Z.of_N total' - Z.of_N total)%Z /\ c_sent c' = c_sent c /\ c_bal c' = c_bal c /\ left' <= left /\ total <= total'.
Proof.
  revert n left total c left' total' c'. apply (loop_ind i chunk e (fun n left total c left' total' c' => W (c_vars c) -> moved c c' (fun j => if Bool.eqb i j then Z.of_N left' - Z.of_N left else Z.of_N total' - Z.of_N total)%Z /\ c_sent c' = c_sent c /\ c_bal c' = c_bal c /\ left' <= left /\ total <= total')).
  - intros n left total c HW. split; [apply moved_refl; auto; intros j; destruct (Bool.eqb i j); lia|]. split; auto. split; auto. lia.
  - intros n left total c a t fee g m p p' c1 left' total' c' HW RO LB TB -> G Q GP GE FL TK E1 E2 E3 E4 E5 E6 MV IH _. destruct IH as (M & S1 & S2 & L1 & L2); [apply MV|].
    split; [|split; [congruence|]; split; [congruence|]; lia]. eapply moved_trans; [exact MV|exact M|]. intros j. cbn beta. destruct (Bool.eqb i j); lia.
  - auto.
Qed.
Lemma rates_moved c c' d : moved c c' d -> rates_ok (c_vars c) -> rates_ok (c_vars c').
Proof. intros (_ & _ & E & _) H. unfold rates_ok in *. apply (Forall_map p_rate (fun r => r < 2 ^ 64)) in H. rewrite <- E in H. now apply (Forall_map p_rate (fun r => r < 2 ^ 64)) in H. Qed.
Lemma exec_moved m e v bal x c : exec m e (begin e v bal) = Some (x, c) -> W v -> rates_ok v -> (forall cur n, e_deposit e = Some (cur, n) -> n < 2 ^ 256) ->
  exists d, moved (begin e v bal) c d /\ forall i, (sur i (mk_ctr v bal [] []) <= sur i (begin e v bal) + d i)%Z.
Proof.
  intros H HW RO DB. assert (S0 : forall i, (sur i (mk_ctr v bal [] []) <= sur i (begin e v bal))%Z).
  { intros i. unfold sur, begin. cbn [c_vars c_bal]. destruct (e_deposit e) as [(cur, n)|]; [|lia]. unfold credit. destruct (addr_eqb _ cur); lia. }
  assert (HB : W (c_vars (begin e v bal))) by exact HW.
  destruct m as [|i n|i amount dry|dry|n|i dst mn n]; cbn [exec] in H.
  - apply payout_moved in H as (M & _); auto. exists (fun _ => 0%Z). split; auto. intros i. specialize (S0 i). lia.
  - unfold add_liquid in H. step H. simp H0. step H. simp H0. step H. simp H1. match goal with D : e_deposit e = Some ?y |- _ => destruct y as (cur, amount) end. cbn [fst snd begin c_vars] in *. destruct (addr_eqb_spec cur (at2 i (tokens v))) as [->|]; [|discriminate].
    apply add_moved in H; auto; [|eapply DB; eauto]. eexists. split; [exact H|]. intros j. cbn beta. unfold sur, begin. cbn [c_vars c_bal]. rewrite H0. unfold credit.
    destruct (Bool.eqb_spec i j) as [<-|NE]; [rewrite addr_eqb_refl; lia|]. destruct (addr_eqb _ _); lia.
  - step H. apply rem_liquid_moved in H0 as (M & _); auto. injection H as _ <-. eexists. split; [exact M|]. intros j. specialize (S0 j). cbn beta. destruct dry; lia.
  - step H. apply rem_all_moved in H0 as M; auto. injection H as _ <-. eexists. split; [exact M|]. intros j. specialize (S0 j). cbn beta. destruct dry; lia.
  - apply switch_moved in H as M; auto. eexists. split; [exact M|]. intros j. specialize (S0 j). cbn beta. lia.
  - unfold trade in H. step H. simp H0. step H. simp H0. step H. simp H0. step H. simp H1. match goal with D : e_deposit e = Some ?y |- _ => destruct y as (cur, amount) end. cbn [fst snd begin c_vars] in *. destruct (addr_eqb_spec cur (at2 i (tokens v))) as [->|]; [|discriminate].
    step H. apply uadd_same in H1. subst. step H. assert (c0 = begin e v bal) by (unfold usub in H1; destruct (_ <? _); [discriminate|]; now injection H1 as _ <-). subst. clear H1. step H. apply udiv_inv in H1 as (_ & _ & ->).
    step H. match type of H1 with _ = Some (?y, _) => destruct y as (left', total') end. apply loop_moved in H1 as (M & S1 & S2 & _); auto; [|eapply DB; eauto|reflexivity]. step H. simp H1. step H. simp H1. step H. simp H1. cbn [fst snd] in *. apply N.eqb_eq in E1. apply N.ltb_lt in E3. subst left'.
    apply send_inv in H as [(Z & _)|(_ & L & ->)]; [lia|]. pose proof M as (W1 & T1 & _). cbn [c_vars begin] in T1.
    assert (M2 : moved c0 (mk_ctr (c_vars c0) (fun x => if addr_eqb x (at2 (negb i) (tokens v)) then c_bal c0 (at2 (negb i) (tokens v)) - total' else c_bal c0 x) (mk_payment dst (at2 (negb i) (tokens v)) total' :: c_sent c0) (c_minted c0)) (fun j => if Bool.eqb i j then 0 else - Z.of_N total')%Z).
    { split; [exact W1|]. split; [reflexivity|]. split; [reflexivity|]. split; [|reflexivity]. intros j. unfold sur. cbn [c_bal c_vars]. rewrite T1. pose proof (tok_ne v i HW) as NE. destruct (Bool.eqb_spec i j) as [<-|NJ].
      - destruct (addr_eqb_spec (at2 i (tokens v)) (at2 (negb i) (tokens v))); [congruence|]. lia.
      - assert (j = negb i) by (destruct i, j; auto; congruence). subst j. rewrite addr_eqb_refl. lia. }
    eexists. split; [eapply moved_trans; [exact M|exact M2|intros j; reflexivity]|]. intros j. cbn beta. unfold sur, begin. cbn [c_vars c_bal]. rewrite H0. unfold credit.
    destruct (Bool.eqb_spec i j) as [<-|NE]; [rewrite addr_eqb_refl; lia|]. destruct (addr_eqb _ _); lia.
Qed.
Lemma traded_refl i p : traded i p p.
Proof. unfold traded. rewrite !N.sub_diag, N.add_0_r. cbn [N.mul]. repeat (split; [auto; lia|]). lia. Qed.
Lemma traded_trans i p1 p2 p3 : traded i p1 p2 -> traded i p2 p3 -> traded i p1 p3.
Proof.
  intros (A1 & A2 & A3 & A4 & A5 & A6 & A7 & A8 & A9) (B1 & B2 & B3 & B4 & B5 & B6 & B7 & B8 & B9). unfold traded.
  split; [congruence|]. split; [congruence|]. split; [congruence|]. split; [congruence|]. split; [lia|]. split; [lia|]. split; [lia|].
  revert A5 A6 A7 A8 A9 B5 B6 B7 B8 B9. rewrite A2.
  generalize (at2 i (p_bal p1)), (at2 i (p_bal p2)), (at2 i (p_bal p3)), (at2 (negb i) (p_bal p1)), (at2 (negb i) (p_bal p2)), (at2 (negb i) (p_bal p3)), (at2 (negb i) (p_paid p1)), (at2 (negb i) (p_paid p2)), (at2 (negb i) (p_paid p3)), (p_rate p1).
  intros i1 i2 i3 k1 k2 k3 f1 f2 f3 r A5 A6 A7 A8 A9 B5 B6 B7 B8 B9.
  replace (f3 - f1) with ((f3 - f2) + (f2 - f1)) by lia. replace (k1 - k3) with ((k2 - k3) + (k1 - k2)) by lia. split.
  - rewrite N.add_assoc, N.mul_add_distr_l. rewrite N.mul_add_distr_l in A8. assert (i2 * (f2 - f1) <= i3 * (f2 - f1)) by (apply N.mul_le_mono_r; lia). lia.
  - rewrite !N.mul_add_distr_r. lia.
Qed.
Lemma Forall2_upd {A} (R : A -> A -> Prop) l n old p : (forall x, R x x) -> nth_error l n = Some old -> R old p -> Forall2 R l (upd l n p).
Proof.
  intros Rr. revert n. assert (F : forall l, Forall2 R l l) by (induction l0; auto). induction l as [|y l IH]; intros [|n] G H; try discriminate; cbn in *; [injection G as ->; auto|]. constructor; auto.
Qed.
Lemma Forall2_trans {A} (R : A -> A -> Prop) : (forall x y z, R x y -> R y z -> R x z) -> forall l1 l2 l3, Forall2 R l1 l2 -> Forall2 R l2 l3 -> Forall2 R l1 l3.
Proof. intros T l1 l2 l3 H. revert l3. induction H; intros l3 H'; inversion H'; subst; constructor; eauto. Qed.
Definition small (i : bool) (left : N) (c : ctr vars) : Prop :=
  forall m p, nth_error (state (c_vars c)) m = Some p -> at2 i (p_bal p) + left < 2 ^ 128 /\ at2 (negb i) (p_bal p) < 2 ^ 128.
Lemma chunk_traded p p' i a t fee g e c : quote p i a e c = Some ((t, fee, g), c) -> pool_ok p -> 0 < g -> taken i a t fee p p' -> p_rate p < 2 ^ 64 ->
  at2 i (p_bal p) + a < 2 ^ 128 -> at2 (negb i) (p_bal p) < 2 ^ 128 -> traded i p p'.
Proof.
  intros Q PO GP (T1 & T2 & T3 & T4 & T5 & T6 & T7 & T8) RB S1 S2.
  assert (AB : a < 2 ^ 256) by (apply N.le_lt_trans with (2 ^ 128); [lia|reflexivity]).
  assert (MM : forall x y, x < 2 ^ 128 -> y < 2 ^ 128 -> x * y < 2 ^ 256). { intros x y X Y. change (2 ^ 256) with (2 ^ 128 * 2 ^ 128). now apply N.mul_lt_mono. }
  apply quote_inv in Q as (_ & L1 & L2 & -> & TE & FE & NZ & FX); auto.
  assert (PB : at2 i (p_bal p) * at2 (negb i) (p_bal p) < 2 ^ 256) by (apply MM; lia). specialize (TE PB).
  assert (RT : t * p_rate p < 2 ^ 256). { apply MM; [lia|]. apply N.lt_trans with (2 ^ 64); [auto|reflexivity]. }
  specialize (FX RT ltac:(lia)). specialize (FE ltac:(lia)). unfold traded. rewrite T1, T2, T3, T4, T5, T7, T8.
  pose proof (N.mul_succ_div_gt (at2 i (p_bal p) * at2 (negb i) (p_bal p)) (at2 i (p_bal p) + a) ltac:(lia)) as DG.
  revert TE L1 L2 NZ FX FE DG T6. generalize (at2 i (p_bal p) * at2 (negb i) (p_bal p) / (at2 i (p_bal p) + a)) as q. clear. generalize (at2 i (p_bal p)) as b, (at2 (negb i) (p_bal p)) as d, (at2 (negb i) (p_paid p)) as f, (p_rate p) as r.
  intros b d f r q TE L1 L2 NZ FX FE DG T6. split; [auto|]. split; [auto|]. split; [auto|]. split; [auto|]. split; [lia|]. split; [lia|]. split; [lia|]. replace (f + fee - f) with fee by lia. replace (d - (d - t)) with t by lia. split; [|lia].
  assert (LE : b * d < (b + a) * (q + 1)) by (rewrite N.add_1_r; exact DG).
  destruct (N.le_gt_cases q d) as [QD|QD].
  - assert ((b + a) * (q + 1) <= (b + a) * (d - t + fee)) by (apply N.mul_le_mono_l; lia). lia.
  - assert (t = 0) by lia. subst. assert (b * d <= (b + a) * d) by (apply N.mul_le_mono_r; lia). replace (d - 0 + fee) with (d + fee) by lia. rewrite N.mul_add_distr_l. lia.
Qed.
Lemma loop_traded i chunk e n left total c left' total' c' : W (c_vars c) -> rates_ok (c_vars c) -> left < 2 ^ 256 -> total < 2 ^ 256 -> trade_loop n i chunk left total e c = Some ((left', total'), c') ->
  small i left c -> Forall2 (traded i) (state (c_vars c)) (state (c_vars c')) /\ users (c_vars c') = users (c_vars c) /\ tokens (c_vars c') = tokens (c_vars c) /\
    reserves i (c_vars c') + left' = reserves i (c_vars c) + left.
Proof.
  revert n left total c left' total' c'. apply (loop_ind i chunk e (fun n left total c left' total' c' => small i left c -> Forall2 (traded i) (state (c_vars c)) (state (c_vars c')) /\ users (c_vars c') = users (c_vars c) /\ tokens (c_vars c') = tokens (c_vars c) /\
    reserves i (c_vars c') + left' = reserves i (c_vars c) + left)).
  - intros n left total c _. split; [|auto]. generalize (state (c_vars c)). induction l; constructor; auto using traded_refl.
  - intros n left total c a t fee g m p p' c1 left' total' c' HW RO LB TB -> G Q GP GE FL TK E1 E2 E3 E4 E5 E6 MV IH SM.
    destruct (SM m p G) as (S1 & S2). assert (TR : traded i p p').
    { eapply chunk_traded; eauto; [eapply W_pool_at; eauto|unfold rates_ok in RO; rewrite Forall_forall in RO; apply RO; eapply nth_error_In, G|lia]. }
    assert (SM' : small i (left - N.min chunk left) c1).
    { intros m' p2 G2. rewrite E2, (upd_nth _ _ _ _ _ G) in G2. destruct (Nat.eqb_spec m' m).
      - injection G2 as <-. destruct TK as (_ & _ & _ & _ & T5 & T6 & T7 & _). rewrite T5, T7. lia.
      - destruct (SM m' p2 G2). lia. }
    destruct (IH SM') as (I1 & I2 & I3 & I4). split; [|split; [congruence|]; split; [congruence|]].
    + eapply Forall2_trans; [apply traded_trans| |exact I1]. rewrite E2. eapply Forall2_upd; eauto using traded_refl.
    + assert (RE : reserves i (c_vars c1) = reserves i (c_vars c) + N.min chunk left).
      { unfold reserves. rewrite E2. pose proof (sum_upd (fun p => at2 i (p_bal p)) _ _ p' _ G) as SU. cbn beta in SU. destruct TK as (_ & _ & _ & _ & T5 & _). lia. }
      lia.
  - auto.
Qed.

(** ** To whom payments go *)
Definition only {A} (e : env) (m : act vars A) : Prop := forall c x c', m e c = Some (x, c') -> Forall (fun p => e_user e = Some (pm_to p)) (c_sent c) -> Forall (fun p => e_user e = Some (pm_to p)) (c_sent c').
Lemma o_bind {A B} e (m : act vars A) (k : A -> act vars B) : only e m -> (forall x, only e (k x)) -> only e (bind m k).
Proof. intros H1 H2 c y c' H F. apply bind_inv in H as (x & c1 & E1 & E2). eapply H2; eauto. Qed.
Lemma o_pure {A} e (m : act vars A) : (forall c x c', m e c = Some (x, c') -> c_sent c' = c_sent c) -> only e m.
Proof. intros H c x c' E F. now rewrite (H _ _ _ E). Qed.
Lemma o_set e s : only e (set s). Proof. apply o_pure. now intros c x c' [= <- <-]. Qed.
Lemma o_get e : only e (@get vars). Proof. apply o_pure. now intros c x c' [= <- <-]. Qed.
Lemma o_user e : only e (@user vars). Proof. apply o_pure. now intros c x c' [= <- <-]. Qed.
Lemma o_height e : only e (@height vars). Proof. apply o_pure. now intros c x c' [= <- <-]. Qed.
Lemma o_ret {A} e (x : A) : only e (ret x). Proof. apply o_pure. now intros c y c' [= <- <-]. Qed.
Lemma o_fail {A} e : only e (@fail vars A). Proof. now intros c y c' H. Qed.
Lemma o_assert e b : only e (@assert vars b). Proof. apply o_pure. intros c x c' H. apply assert_inv in H as (_ & ->). auto. Qed.
Lemma o_deposit e : only e (@deposit vars). Proof. apply o_pure. intros c x c' H. apply deposit_inv in H as (_ & ->). auto. Qed.
Lemma o_uadd e l r : only e (@uadd vars l r). Proof. apply o_pure. intros c x c' H. apply uadd_same in H as ->. auto. Qed.
Lemma o_usub e l r : only e (@usub vars l r). Proof. apply o_pure. unfold usub. intros c x c'. destruct (l <? _); [discriminate|]. now intros [= _ <-]. Qed.
Lemma o_umul e l r : only e (@umul vars l r). Proof. apply o_pure. intros c x c' H. apply umul_le in H as (_ & _ & ->). auto. Qed.
Lemma o_udiv e l r : only e (@udiv vars l r). Proof. apply o_pure. intros c x c' H. apply udiv_inv in H as (_ & _ & ->). auto. Qed.
Lemma o_send e i n : only e (send_user i n).
Proof.
  intros c x c' H F. unfold send_user in H. step H. simp H0. step H. simp H0. destruct (e_user e) as [a|] eqn:U; [|discriminate]. apply send_inv in H as [(_ & ->)|(_ & _ & ->)]; auto.
  cbn [c_sent]. constructor; auto.
Qed.
#[export] Hint Resolve o_set o_get o_user o_height o_ret o_fail o_assert o_deposit o_uadd o_usub o_umul o_udiv o_send : only.
Ltac only_tac := repeat first [ progress (auto with only) | apply o_bind; [|intro] | progress cbv zeta | match goal with |- only _ (match ?x with _ => _ end) => destruct x end | match goal with |- only _ (if ?x then _ else _) => destruct x end ].
Lemma o_payout e : only e payout_. Proof. unfold payout_, get_user, get_pool, earned1, payout1, set_user, set_pool, get_pool, get_user. only_tac. Qed.
#[export] Hint Resolve o_payout : only.
Lemma o_add e i n a : only e (add_liquid_ i n a). Proof. unfold add_liquid_, enter, get_pool, get_user, set_user, set_pool. only_tac. Qed.
Lemma o_rem e i n b : only e (rem_liquid_ i n b). Proof. unfold rem_liquid_, shares, get_pool, get_user, set_user, set_pool. only_tac. Qed.
#[export] Hint Resolve o_add o_rem : only.
Lemma o_rem' e i n b : only e (rem_liquid i n b). Proof. unfold rem_liquid, get_user. only_tac. Qed.
#[export] Hint Resolve o_rem' : only.
Lemma exec_only m e : (forall i dst mn n, m <> Trade i dst mn n) -> only e (exec m).
Proof. intros NT. destruct m as [|i n|i a d|d|n|i dst mn n]; cbn [exec]; [| | | | |destruct (NT i dst mn n eq_refl)]; unfold add_liquid, rem_all_liquid, switch_pool, each, get_user; only_tac. Qed.
(** ** Accounting *)
Lemma k_loop n : forall i chunk l t, keeps (trade_loop n i chunk l t).
Proof.
  induction n as [|n IH]; intros i chunk l t; cbn [trade_loop]; [keeps_tac|]. unfold get_pool. assert (B : forall ps m a acc, keeps (best ps m i a acc)) by (induction ps as [|p ps IHp]; intros m a acc; cbn [best]; unfold quote; keeps_tac). keeps_tac.
Qed.
Lemma exec_keeps m : keeps (exec m).
Proof.
  assert (KP : keeps payout_) by (unfold payout_, get_user, get_pool, earned1, payout1, set_user, set_pool, get_pool, get_user, send_user; keeps_tac).
  assert (KR : forall i a b, keeps (rem_liquid_ i a b)) by (intros; unfold rem_liquid_, shares, get_pool, get_user, set_user, set_pool, send_user; keeps_tac).
  assert (KR' : forall i a b, keeps (rem_liquid i a b)) by (intros; unfold rem_liquid, get_user; keeps_tac).
  assert (KA : forall i n a, keeps (add_liquid_ i n a)) by (intros; unfold add_liquid_, enter, get_pool, get_user, set_user, set_pool; keeps_tac).
  destruct m as [|i n|i a d|d|n|i dst mn n]; cbn [exec]; unfold add_liquid, rem_all_liquid, switch_pool, each, get_user, trade; keeps_tac; apply k_loop.
Qed.
(** ** Forward *)
Lemma bind_ok {A B} (m : act vars A) (k : A -> act vars B) e c x c1 : m e c = Some (x, c1) -> bind m k e c = k x e c1.
Proof. intros H. unfold bind. now rewrite H. Qed.
Lemma get_user_ok e c u : find (e_user e) (users (c_vars c)) = Some u -> get_user e c = Some (u, c).
Proof. intros F. unfold get_user, bind, user, get. now rewrite F. Qed.
Lemma get_pool_ok n e c p : nth_error (state (c_vars c)) (N.to_nat n) = Some p -> get_pool n e c = Some (p, c).
Proof. intros F. unfold get_pool, bind, get. now rewrite F. Qed.
Lemma udiv_ok l r e (c : ctr vars) : r <> 0 -> udiv l r e c = Some (l / r, c).
Proof. intros NZ. unfold udiv. destruct (N.eqb_spec r 0); [congruence|reflexivity]. Qed.
(** the amounts of a removal *)
Lemma shares_ok p i amount e c : pool_ok p -> amount < 2 ^ 128 -> (forall j, at2 j (p_bal p) < 2 ^ 128) -> 0 < at2 i (p_tot p) -> amount <= at2 i (p_tot p) ->
  exists r t, shares p i amount e c = Some ((r, t), c) /\ r <= at2 i (p_bal p) /\ t <= at2 (negb i) (p_bal p) - at2 (negb i) (p_tot p) /\
    at2 i (p_bal p) * (at2 i (p_tot p) - amount) <= (at2 i (p_bal p) - r) * at2 i (p_tot p) /\
    (at2 (negb i) (p_bal p) - at2 (negb i) (p_tot p)) * (at2 i (p_tot p) - amount) <= (at2 (negb i) (p_bal p) - t - at2 (negb i) (p_tot p)) * at2 i (p_tot p).
Proof.
  intros PO AB BB TP AT. assert (MM : forall x y, x < 2 ^ 128 -> y < 2 ^ 128 -> x * y < 2 ^ 256). { intros x y X Y. change (2 ^ 256) with (2 ^ 128 * 2 ^ 128). now apply N.mul_lt_mono. }
  pose proof (BB i) as B1. pose proof (BB (negb i)) as B2. destruct (PO (negb i)) as (Q1 & Q2 & _). unfold shares. cbv zeta.
  rewrite (bind_ok _ _ _ _ _ _ (umul_ok _ _ e c (MM _ _ B1 AB))). rewrite (bind_ok _ _ _ _ _ _ (udiv_ok _ (at2 i (p_tot p)) e c ltac:(lia))).
  assert (SH : forall x, x * amount / at2 i (p_tot p) <= x /\ x * (at2 i (p_tot p) - amount) <= (x - x * amount / at2 i (p_tot p)) * at2 i (p_tot p)).
  { intros x. set (T := at2 i (p_tot p)) in *. pose proof (N.mul_div_le (x * amount) T ltac:(lia)) as G. assert (D : x * amount / T <= x) by (apply N.div_le_upper_bound; [lia|]; rewrite (N.mul_comm T); apply N.mul_le_mono_l; auto).
    split; auto. rewrite N.mul_sub_distr_l, N.mul_sub_distr_r. rewrite (N.mul_comm _ T) in *. rewrite (N.mul_comm (x * amount / T) T). lia. }
  destruct (N.ltb_spec (at2 i (p_bal p)) (at2 i (p_tot p))) as [L|L].
  - destruct (N.ltb_spec (at2 (negb i) (p_tot p)) (at2 (negb i) (p_bal p))) as [K|K].
    + rewrite (bind_ok _ _ _ _ _ _ (usub_ok (at2 (negb i) (p_bal p)) (at2 (negb i) (p_tot p)) e c ltac:(lia) Q1)). rewrite (bind_ok _ _ _ _ _ _ (umul_ok (at2 (negb i) (p_bal p) - at2 (negb i) (p_tot p)) amount e c ltac:(apply MM; [lia|exact AB]))).
      rewrite (bind_ok _ _ _ _ _ _ (udiv_ok _ (at2 i (p_tot p)) e c ltac:(lia))). eexists. eexists. split; [reflexivity|]. destruct (SH (at2 i (p_bal p))) as (S1 & S2). destruct (SH (at2 (negb i) (p_bal p) - at2 (negb i) (p_tot p))) as (S3 & S4).
      split; auto. split; auto. split; auto. replace (at2 (negb i) (p_bal p) - _ - at2 (negb i) (p_tot p)) with (at2 (negb i) (p_bal p) - at2 (negb i) (p_tot p) - (at2 (negb i) (p_bal p) - at2 (negb i) (p_tot p)) * amount / at2 i (p_tot p)) by lia. exact S4.
    + eexists. eexists. split; [reflexivity|]. destruct (SH (at2 i (p_bal p))) as (S1 & S2). split; auto. split; [lia|]. split; auto. replace (at2 (negb i) (p_bal p) - at2 (negb i) (p_tot p)) with 0 by lia. lia.
  - destruct (N.ltb_spec (at2 (negb i) (p_bal p)) (at2 (negb i) (p_tot p))) as [K|K].
    + eexists. eexists. split; [reflexivity|]. split; [lia|]. split; [lia|]. split.
      * rewrite N.mul_sub_distr_l, N.mul_sub_distr_r. assert (at2 i (p_tot p) * amount <= at2 i (p_bal p) * amount) by (apply N.mul_le_mono_r; auto). rewrite (N.mul_comm amount). lia.
      * replace (at2 (negb i) (p_bal p) - at2 (negb i) (p_tot p)) with 0 by lia. lia.
    + eexists. eexists. split; [reflexivity|]. destruct (SH (at2 i (p_bal p))) as (S1 & S2). split; auto. split; [lia|]. split; auto. rewrite N.sub_0_r. apply N.mul_le_mono_l. lia.
Qed.
Lemma sum_ge {A} (f : A -> N) l n x : nth_error l n = Some x -> f x <= sumN f l.
Proof. revert n. induction l as [|y l IH]; intros [|n] G; try discriminate; cbn [nth_error] in G; rewrite sum_cons; [injection G as ->; lia|]. apply IH in G. lia. Qed.
Lemma maybe_send_ok i n e c a : e_user e = Some a -> n < 2 ^ 128 -> n <= c_bal c (at2 i (tokens (c_vars c))) ->
  exists c', (if (0 <? n) && true then send_user i n else ret tt) e c = Some (tt, c') /\ c_vars c' = c_vars c /\
    (forall cur, c_bal c' cur = if addr_eqb cur (at2 i (tokens (c_vars c))) then c_bal c cur - n else c_bal c cur).
Proof.
  intros U B L. destruct (N.ltb_spec 0 n) as [P|P]; cbn [andb].
  - eexists. split; [|split].
    + unfold send_user, bind, user, get. rewrite U. rewrite send_ok; [reflexivity|lia|auto].
    + reflexivity.
    + intros cur. cbn [c_bal c_vars]. destruct (addr_eqb_spec cur (at2 i (tokens (c_vars c)))) as [->|]; auto.
  - exists c. split; [reflexivity|]. split; auto. intros cur. destruct (addr_eqb _ _); lia.
Qed.
Lemma rem_ok i amount e c a u p : W (c_vars c) -> (forall j, 0 <= sur j c)%Z -> (forall j, c_bal c (at2 j (tokens (c_vars c))) < 2 ^ 128) -> e_user e = Some a ->
  find (Some a) (users (c_vars c)) = Some u -> nth_error (state (c_vars c)) (N.to_nat (u_pool u)) = Some p ->
  0 < amount <= at2 i (u_bal u) -> amount < 2 ^ 128 -> exists out c', rem_liquid_ i amount true e c = Some (out, c').
Proof.
  intros HW SO CB U F G AL AB. pose proof (W_pool_at _ _ _ HW G) as PO. destruct (W_user_at _ _ _ HW F) as (p0 & G0 & UB). rewrite G in G0. injection G0 as <-.
  assert (BL : forall j, at2 j (p_bal p) <= c_bal c (at2 j (tokens (c_vars c)))).
  { intros j. specialize (SO j). unfold sur in SO. pose proof (sum_ge (fun p => at2 j (p_bal p)) _ _ _ G) as S. cbn beta in S. fold (reserves j (c_vars c)) in S. lia. }
  assert (UT : at2 i (u_bal u) <= at2 i (p_tot p)).
  { pose proof HW as (_ & _ & _ & E & _). rewrite (E (u_pool u) p i G). unfold units. clear - F. induction (users (c_vars c)) as [|(x, o) l IH]; cbn [find] in F; [discriminate|]. rewrite sum_cons. cbn [snd].
    destruct (key_eqb x (Some a)); [injection F as ->; rewrite N.eqb_refl; lia|]. apply IH in F. lia. }
  destruct (shares_ok p i amount e c PO AB) as (r & t & SH & RL & TL & _ & _); [intros j; specialize (CB j); specialize (BL j); lia|lia|lia|].
  unfold rem_liquid_. rewrite <- U in F. rewrite (bind_ok _ _ _ _ _ _ (get_user_ok _ _ _ F)), (bind_ok _ _ _ _ _ _ (get_pool_ok _ e _ _ G)), (bind_ok _ _ _ _ _ _ SH). cbv zeta. cbn [fst snd].
  destruct (PO i) as (A1 & A2 & A3 & A4). destruct (PO (negb i)) as (B1 & B2 & B3 & B4). pose proof (BL i) as BLi. pose proof (BL (negb i)) as BLk. pose proof (CB i) as CBi. pose proof (CB (negb i)) as CBk. destruct (UB i) as (UBi & _).
  destruct (maybe_send_ok i r e c a U ltac:(lia) ltac:(lia)) as (c1 & S1 & V1 & L1). rewrite (bind_ok _ _ _ _ _ _ S1). rewrite (bind_ok _ _ _ _ _ _ (usub_ok _ _ e c1 RL A1)).
  assert (L2 : c_bal c1 (at2 (negb i) (tokens (c_vars c1))) = c_bal c (at2 (negb i) (tokens (c_vars c)))). { rewrite V1, L1. destruct (addr_eqb_spec (at2 (negb i) (tokens (c_vars c))) (at2 i (tokens (c_vars c)))) as [E|]; auto. now apply tok_ne in E. }
  destruct (maybe_send_ok (negb i) t e c1 a U ltac:(lia) ltac:(rewrite L2; lia)) as (c2 & S2 & V2 & _). rewrite (bind_ok _ _ _ _ _ _ S2). rewrite (bind_ok _ _ _ _ _ _ (usub_ok (at2 (negb i) (p_bal p)) t e c2 ltac:(lia) B1)).
  rewrite (bind_ok _ _ _ _ _ _ (usub_ok (at2 i (u_bal u)) amount e c2 ltac:(lia) UBi)). rewrite (bind_ok _ _ _ _ _ _ (usub_ok (at2 i (p_tot p)) amount e c2 ltac:(lia) A2)).
  unfold set_pool, set_user, bind, get, set, user, ret. eexists. eexists. reflexivity.
Qed.
Lemma earned1_ok p u i e c : pool_ok p -> at2 i (u_last_paid u) <= at2 i (p_paid p) -> at2 i (p_paid p) < 2 ^ 127 -> at2 i (u_bal u) < 2 ^ 128 -> at2 i (p_tot p) < 2 ^ 255 -> at2 i (u_last_tot u) < 2 ^ 255 ->
  at2 i (u_bal u) <= at2 i (p_tot p) -> exists n, earned1 p u i e c = Some (n, c).
Proof.
  intros PO LP PB UB TB LB UT. destruct (PO i) as (A1 & A2 & A3 & A4). unfold earned1. destruct (N.ltb_spec 0 (at2 i (u_bal u))); [|eexists; reflexivity].
  rewrite (bind_ok _ _ _ _ _ _ (usub_ok _ _ e c LP A3)). match goal with |- exists n, (if ?b then _ else _) _ _ = _ => destruct b end; [|eexists; reflexivity].
  set (f := at2 i (p_paid p) - at2 i (u_last_paid u)). assert (FB : 2 * f < 2 ^ 128). { change (2 ^ 128) with (2 * 2 ^ 127). apply N.mul_lt_mono_pos_l; [reflexivity|]. unfold f. lia. }
  rewrite (bind_ok _ _ _ _ _ _ (umul_ok 2 f e c ltac:(apply N.lt_trans with (2 ^ 128); [exact FB|reflexivity]))).
  assert (MB : 2 * f * at2 i (u_bal u) < 2 ^ 256) by (change (2 ^ 256) with (2 ^ 128 * 2 ^ 128); now apply N.mul_lt_mono).
  rewrite (bind_ok _ _ _ _ _ _ (umul_ok _ _ e c MB)). assert (SB : at2 i (p_tot p) + at2 i (u_last_tot u) < 2 ^ 256) by (change (2 ^ 256) with (2 ^ 255 + 2 ^ 255); lia).
  rewrite (bind_ok _ _ _ _ _ _ (uadd_ok _ _ e c SB)). rewrite (bind_ok _ _ _ _ _ _ (udiv_ok _ (at2 i (p_tot p) + at2 i (u_last_tot u)) e c ltac:(lia))). rewrite (bind_ok _ _ _ _ _ _ (usub_ok _ _ e c A4 A3)). eexists. reflexivity.
Qed.
