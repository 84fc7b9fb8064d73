(** C95-C98: contracts that sell tokens *)
Require Import List Arith NArith Bool Lia.
From Verif Require Import BytesLib EngineModel EngineUpper CtrModel CtrSpec CtrProofs SaleModel SaleSpec SaleProofs HorseProofs.
Import List ListNotations.
Open Scope N_scope.

(** ** C95: tokens of the liquid token can be sold back at the stated value *)
(** whoever has tokens in circulation gets for [n] of them exactly the value the contract states, as long as the owner has not used recover() on the currency: see below *)
Theorem C95_tokens_can_be_sold_back_partial owner price ratio cur me v0 bal0 h l y k :
  LiquidToken.init owner price cur ratio = Some v0 -> me <> cur ->
  history LiquidToken.exec (v0, bal0) h l y k -> possible me 0 l -> no_recovery cur l ->
  forall e u n, e_self e = me -> e_user e = Some u -> e_deposit e = Some (me, n) -> n <= circulating me 0 l -> n < 2 ^ 128 -> snd y cur < 2 ^ 128 ->
  exists c, LiquidToken.exec LiquidToken.Sell e (begin e (fst y) (snd y)) = Some (tt, c) /\
    paid_to u cur (rev (c_sent c)) = sale_value price ratio n /\ paid_to native me (rev (c_sent c)) = n /\ c_vars c = fst y.
Proof.
  unfold LiquidToken.init. destruct (N.ltb_spec 0 price) as [PR|]; [|discriminate]. destruct (N.ltb_spec ratio 1000) as [RA|]; [|discriminate]. intros [= <-] ME H PO NR e u n ES EU DE NC N1 BC.
  assert (B : Liquid.backing price ratio cur (circulating me 0 l) (fst y) (snd y)).
  { eapply (Liquid.history_backing price ratio cur me PR RA ME 0); eauto. repeat split; cbn; lia. }
  exact (Liquid.sell_succeeds price ratio cur me PR RA ME _ _ _ e u n B ES EU DE NC N1 BC).
Qed.
(** the owner cannot withdraw more than his part of what buyers paid *)
Theorem C95_owner_part owner price ratio cur v0 bal0 h l y k : LiquidToken.init owner price cur ratio = Some v0 -> history LiquidToken.exec (v0, bal0) h l y k ->
  withdrawn cur l <= owners_parts ratio l.
Proof.
  unfold LiquidToken.init. destruct (N.ltb_spec 0 price) as [PR|]; [|discriminate]. destruct (N.ltb_spec ratio 1000) as [RA|]; [|discriminate]. intros [= <-] H.
  apply (Liquid.history_owner price ratio cur PR RA 0 _ _ _ _ _ H). repeat split; cbn; lia.
Qed.

(** ** C96: tokens are minted to buyers only, at the price, and what they pay goes to the owner only *)
Definition sold_at {M} (buy : M) (price : N) (cur : addr) (ev : event M) (mints : list (addr * N)) : Prop :=
  exists e u n, ev = Call e buy /\ e_user e = Some u /\ e_deposit e = Some (cur, n) /\ mints = [(u, n * price / 2 ^ 64)].
Theorem C96_minted_at_the_price owner price cur bal0 h l y k : history PriceToken.exec (PriceToken.mk owner price cur, bal0) h l y k -> current l ->
  forall z, In z l -> minted_by z = [] \/ sold_at PriceToken.Buy price cur (ev_of z) (minted_by z).
Proof. intros H C. apply (Mints.price_history price cur _ _ _ _ _ H); auto. split; reflexivity. Qed.
Theorem C96_liquid_minted_at_the_price owner price cur ratio v0 bal0 h l y k : LiquidToken.init owner price cur ratio = Some v0 -> history LiquidToken.exec (v0, bal0) h l y k -> current l ->
  forall z, In z l -> minted_by z = [] \/ sold_at LiquidToken.Buy price cur (ev_of z) (minted_by z).
Proof. unfold LiquidToken.init. destruct (_ && _); [|discriminate]. intros [= <-] H C. apply (Mints.liquid_history price cur _ _ _ _ _ H); auto. split; reflexivity. Qed.
Theorem C96_only_the_owner_is_paid x e m p mm y : happens PriceToken.exec x (Call e m) p mm y -> 1 <= e_version e ->
  p = [] \/ e_user e = Some (PriceToken.owner (fst x)) /\ all_to (PriceToken.owner (fst x)) p.
Proof.
  intros H V. inversion H as [v bal e' m' c E|]; subst. cbn [fst]. destruct (Mints.price_call (PriceToken.price v) (PriceToken.currency v) v bal e m c V (conj eq_refl eq_refl) E) as (_ & _ & [->|K]); auto.
Qed.

(** ** C97: the horse race can always pay, and its price grows with the pot *)
Theorem C97_price_is_monotone x x' e c : x <= x' -> x' < 2 ^ 190 -> 0 < HorseRace.precision (c_vars c) ->
  exists p p', HorseRace.calc_price x e c = Some (p, c) /\ HorseRace.calc_price x' e c = Some (p', c) /\ p <= p' <= x'.
Proof.
  intros L B P. exists (Horse.price (HorseRace.precision (c_vars c)) x), (Horse.price (HorseRace.precision (c_vars c)) x').
  split; [apply Horse.calc_price_ok; auto; eapply N.le_lt_trans; eauto|]. split; [now apply Horse.calc_price_ok|]. split; [now apply Horse.price_mono|now apply Horse.price_le].
Qed.
Theorem C97_pots_are_there horses cur precision decimals activation v0 bal0 h l y k :
  HorseRace.init horses cur precision decimals activation = Some v0 -> history HorseRace.exec (v0, bal0) h l y k -> current l -> bal0 cur + inflow cur l < 2 ^ 128 ->
  pots (fst y) <= snd y cur /\ pots (fst y) + paid_out cur l = bets l.
Proof.
  intros I H C B. destruct (Horse.init_fine horses cur precision decimals activation v0 I) as (F & Z & PP & SC).
  destruct (Horse.history_horse _ _ _ _ PP SC _ _ _ _ _ H C F) as (_ & A & E & _ & _); cbn [fst snd]; auto; [rewrite Z; lia|]. cbn [fst] in E. rewrite Z in E. auto.
Qed.

(** betting opens at the activation height: not before, and from then on the height does not matter *)
Definition at_height (h : N) (e : env) : env := mk_env (e_user e) h (e_deposit e) (e_self e) (e_version e).
Definition timeless {A} (m : act HorseRace.vars A) : Prop := forall h e c, m (at_height h e) c = m e c.
Lemma tl_bind {A B} (m : act HorseRace.vars A) (k : A -> act HorseRace.vars B) : timeless m -> (forall x, timeless (k x)) -> timeless (bind m k).
Proof. intros M K h e c. unfold bind. rewrite M. destruct (m e c) as [(x, c')|]; [apply K|reflexivity]. Qed.
Lemma tl_iterations n : forall x y, timeless (HorseRace.iterations n x y).
Proof. induction n as [|n IH]; intros x y; cbn [HorseRace.iterations]; [easy|]. destruct (0 <? y); [|easy]. apply tl_bind; [easy|auto]. Qed.
Lemma tl_price x : timeless (HorseRace.calc_price x).
Proof. unfold HorseRace.calc_price. repeat (apply tl_bind; [first [apply tl_iterations|easy]|intro]). easy. Qed.
Lemma tl_balance i : timeless (HorseRace.balance_of i).
Proof. unfold HorseRace.balance_of. apply tl_bind; [intros ? ? ?; reflexivity|intro]. destruct (nth_error _ _); intros ? ? ?; reflexivity. Qed.
Lemma tl_user : timeless HorseRace.the_user.
Proof. unfold HorseRace.the_user. apply tl_bind; [intros ? ? ?; reflexivity|intros [u|]; intros ? ? ?; reflexivity]. Qed.
Lemma tl_buy i x : timeless (HorseRace.get_buy_price i x).
Proof. unfold HorseRace.get_buy_price. apply tl_bind; [apply tl_balance|intro]. apply tl_bind; [intros ? ? ?; reflexivity|intro]. apply tl_price. Qed.
Definition rest_of_buy (i : N) (v : HorseRace.vars) : act HorseRace.vars unit :=
  d <- deposit ;; assert (addr_eqb (fst d) (HorseRace.currency v)) ;;
  price <- HorseRace.get_buy_price i (snd d) ;; x <- umul (snd d) (HorseRace.token_scale v) ;; amount <- udiv x price ;;
  u <- HorseRace.the_user ;; t <- uadd (HorseRace.tokens (HorseRace.wallets v) u i) amount ;; HorseRace.put_tokens u i t ;;
  b <- HorseRace.balance_of i ;; b <- uadd b (snd d) ;; HorseRace.put_balance i b.
Lemma tl_rest i v : timeless (rest_of_buy i v).
Proof.
  unfold rest_of_buy.
  apply tl_bind; [intros ? ? ?; reflexivity|intro]. apply tl_bind; [intros ? ? ?; reflexivity|intro]. apply tl_bind; [apply tl_buy|intro].
  do 7 (apply tl_bind; [first [apply tl_user|apply tl_balance|intros ? ? ?; reflexivity]|intro]). intros ? ? ?; reflexivity.
Qed.
Lemma buy_split i e c : HorseRace.exec (HorseRace.Buy i) e c =
  if (i <? N.of_nat (List.length (HorseRace.balances (c_vars c)))) && (HorseRace.activation_height (c_vars c) <=? e_height e) then rest_of_buy i (c_vars c) e c else None.
Proof.
  transitivity ((assert (i <? N.of_nat (List.length (HorseRace.balances (c_vars c)))) ;; h <- height ;; assert (HorseRace.activation_height (c_vars c) <=? h) ;; rest_of_buy i (c_vars c)) e c); [reflexivity|].
  generalize (rest_of_buy i (c_vars c)). intros k. unfold bind, assert, height. destruct (i <? _); [|reflexivity]. unfold ret. cbv beta iota. destruct (_ <=? e_height e); reflexivity.
Qed.
Theorem C97_opening v bal e i :
  (forall x, HorseRace.exec (HorseRace.Buy i) e (begin e v bal) = Some x -> HorseRace.activation_height v <= e_height e) /\
  (forall h, HorseRace.activation_height v <= e_height e -> HorseRace.activation_height v <= h ->
     HorseRace.exec (HorseRace.Buy i) (at_height h e) (begin e v bal) = HorseRace.exec (HorseRace.Buy i) e (begin e v bal)).
Proof.
  split.
  - intros (x, c) H. cbn [HorseRace.exec] in H. step H. simp H0. step H. simp H0. step H. simp H0. step H. simp H0. now apply N.leb_le in E0.
  - intros h L1 L2. apply N.leb_le in L1, L2. rewrite !buy_split. cbn [c_vars begin e_height at_height]. rewrite L1, L2. destruct (i <? _); [apply tl_rest|reflexivity].
Qed.
Example C97_opening_case : exists v, HorseRace.init 3 [9] 1 2 100 = Some v /\
  HorseRace.exec (HorseRace.Buy 0) (mk_env (Some [7]) 100 (Some ([9], 5000)) [8] 0) (begin (mk_env (Some [7]) 100 (Some ([9], 5000)) [8] 0) v (fun _ => 0)) <> None.
Proof. eexists. split; [vm_compute; reflexivity|]. vm_compute. discriminate. Qed.

(** ** C98: buying and selling bets on horses in turns does not pay.  Whatever happens in between, when as many tokens of each horse are there as before, nobody has taken out
    more than was put in. *)
Theorem C98_round_trips_do_not_pay horses cur precision decimals activation v0 bal0 h l1 x i l2 y k :
  HorseRace.init horses cur precision decimals activation = Some v0 ->
  history HorseRace.exec (v0, bal0) h l1 x i -> history HorseRace.exec x i l2 y k -> current (l1 ++ l2) -> bal0 cur + inflow cur (l1 ++ l2) < 2 ^ 128 ->
  (forall j, supply j (HorseRace.wallets (fst x)) <= supply j (HorseRace.wallets (fst y))) ->
  paid_out cur l2 <= bets l2 /\ forall j, pot (fst x) j <= pot (fst y) j.
Proof.
  intros I H1 H2 C B S. destruct (Horse.init_fine horses cur precision decimals activation v0 I) as (F & Z & PP & SC).
  assert (C1 : current l1) by (intros z e m J; apply C; apply in_app_iff; auto). assert (C2 : current l2) by (intros z e m J; apply C; apply in_app_iff; auto).
  assert (B' : bal0 cur + (inflow cur l1 + inflow cur l2) < 2 ^ 128) by (rewrite <- Horse.inflow_app; exact B). destruct (Horse.history_horse _ _ _ _ PP SC _ _ _ _ _ H1 C1 F) as (F1 & A1 & E1 & _ & BB); cbn [fst snd]; auto; [rewrite Z; lia|lia|].
  cbn [snd] in BB.
  destruct (Horse.history_horse _ _ _ _ PP SC _ _ _ _ _ H2 C2 F1) as (F2 & A2 & E2 & G & _); auto; [lia|].
  split.
  - pose proof (Horse.gain_pots _ _ _ _ PP SC _ _ F1 F2 G S). lia.
  - intros j. exact (Horse.gain_pot _ _ PP SC _ _ j G (S j)).
Qed.
(** as many tokens of one horse as before: its pot has not become smaller *)
Theorem C98_pot_of_a_horse horses cur precision decimals activation v0 bal0 h l1 x i l2 y k j :
  HorseRace.init horses cur precision decimals activation = Some v0 ->
  history HorseRace.exec (v0, bal0) h l1 x i -> history HorseRace.exec x i l2 y k -> current (l1 ++ l2) -> bal0 cur + inflow cur (l1 ++ l2) < 2 ^ 128 ->
  supply j (HorseRace.wallets (fst x)) <= supply j (HorseRace.wallets (fst y)) -> pot (fst x) j <= pot (fst y) j.
Proof.
  intros I H1 H2 C B S. destruct (Horse.init_fine horses cur precision decimals activation v0 I) as (F & Z & PP & SC).
  assert (C1 : current l1) by (intros z e m J; apply C; apply in_app_iff; auto). assert (C2 : current l2) by (intros z e m J; apply C; apply in_app_iff; auto).
  assert (B' : bal0 cur + (inflow cur l1 + inflow cur l2) < 2 ^ 128) by (rewrite <- Horse.inflow_app; exact B). destruct (Horse.history_horse _ _ _ _ PP SC _ _ _ _ _ H1 C1 F) as (F1 & A1 & E1 & _ & BB); cbn [fst snd]; auto; [rewrite Z; lia|lia|].
  cbn [snd] in BB.
  destruct (Horse.history_horse _ _ _ _ PP SC _ _ _ _ _ H2 C2 F1) as (F2 & A2 & E2 & G & _); auto; [lia|]. exact (Horse.gain_pot _ _ PP SC _ _ j G S).
Qed.
Print Assumptions C95_tokens_can_be_sold_back_partial.
Print Assumptions C95_owner_part.
Print Assumptions C96_minted_at_the_price.
Print Assumptions C96_liquid_minted_at_the_price.
Print Assumptions C96_only_the_owner_is_paid.
Print Assumptions C97_price_is_monotone.
Print Assumptions C97_pots_are_there.
Print Assumptions C97_opening.
Print Assumptions C98_round_trips_do_not_pay.
Print Assumptions C98_pot_of_a_horse.

(** ** Cases *)
Definition A : addr := repeat 1 32.
Definition B : addr := repeat 2 32.
Definition C : addr := repeat 3 32.
Definition coin : addr := repeat 7 32.
Definition me : addr := repeat 9 32.
Definition no_money : addr -> N := fun _ => 0.
Definition by_ (a : addr) (h : N) (d : option (addr * N)) : env := mk_env (Some a) h d me 1.

(** two tokens for a coin, 10% for the owner (A): B and C buy, B sells some, the owner withdraws; then C sells the rest *)
Definition liquid0 : option LiquidToken.vars := LiquidToken.init A (2 * 2 ^ 64) coin 100.
Definition liquid_events : list (event LiquidToken.method) :=
  [Call (by_ B 5 (Some (coin, 1000))) LiquidToken.Buy; Call (by_ C 6 (Some (coin, 55))) LiquidToken.Buy; Call (by_ B 6 (Some (me, 300))) LiquidToken.Sell;
   Call (by_ A 7 None) (LiquidToken.Withdraw 0); Call (by_ A 7 None) (LiquidToken.Transfer C)].
Example C95_case : exists v0 l y k, liquid0 = Some v0 /\ history LiquidToken.exec (v0, no_money) 1 l y k /\ possible me 0 l /\ no_recovery coin l /\ circulating me 0 l = 1810 /\
  map paid_by l = [[]; []; [mk_payment B coin 135; mk_payment native me 300]; [mk_payment A coin 105]; []] /\ withdrawn coin l = 105 /\ owners_parts 100 l = 105 /\ sale_value (2 * 2 ^ 64) 100 1810 = 814 /\
  snd y coin = 815.
Proof.
  destruct liquid0 as [v0|] eqn:I; [|vm_compute in I; discriminate]. destruct (replay LiquidToken.exec (v0, no_money) 1 liquid_events) as [((l, y), k)|] eqn:R; [|vm_compute in I; injection I as <-; vm_compute in R; discriminate].
  exists v0, l, y, k. split; auto. split; [exact (replay_history _ _ _ _ _ _ _ R)|]. vm_compute in I. injection I as <-. vm_compute in R. injection R as <- <- <-. split.
  { cbn [possible]. split; [split; [reflexivity|]; intros K; vm_compute in K; discriminate|]. split; [split; [reflexivity|]; intros K; vm_compute in K; discriminate|]. split; [split; [reflexivity|]; intros _; vm_compute; discriminate|].
    repeat split. }
  split; [intros e n c p m J; cbn [In] in J; repeat destruct J as [J|J]; try discriminate; contradiction|]. repeat split.
Qed.
(** The property is false of the code: the owner takes everything with recover(amount, currency), whose argument hides the variable of the same name, and a sale fails. *)
Theorem C95_recover_refuted : exists v0 l y k, liquid0 = Some v0 /\ history LiquidToken.exec (v0, no_money) 1 l y k /\ possible me 0 l /\ circulating me 0 l = 2000 /\
  map ev_of l = [Call (by_ B 5 (Some (coin, 1000))) LiquidToken.Buy; Call (by_ A 7 None) (LiquidToken.Recover 1000 coin)] /\
  sale_value (2 * 2 ^ 64) 100 2000 = 900 /\ snd y coin = 0 /\
  LiquidToken.exec LiquidToken.Sell (by_ B 8 (Some (me, 2000))) (begin (by_ B 8 (Some (me, 2000))) (fst y) (snd y)) = None.
Proof.
  destruct liquid0 as [v0|] eqn:I; [|vm_compute in I; discriminate].
  destruct (replay LiquidToken.exec (v0, no_money) 1 [Call (by_ B 5 (Some (coin, 1000))) LiquidToken.Buy; Call (by_ A 7 None) (LiquidToken.Recover 1000 coin)]) as [((l, y), k)|] eqn:R;
    [|vm_compute in I; injection I as <-; vm_compute in R; discriminate].
  exists v0, l, y, k. split; auto. split; [exact (replay_history _ _ _ _ _ _ _ R)|]. vm_compute in I. injection I as <-. vm_compute in R. injection R as <- <- <-. split.
  { cbn [possible]. split; [split; [reflexivity|]; intros K; vm_compute in K; discriminate|]. repeat split. }
  repeat split.
Qed.
Print Assumptions C95_recover_refuted.
Example C96_case : exists l y k, history PriceToken.exec (PriceToken.mk A (3 * 2 ^ 63) coin, no_money) 1 l y k /\ current l /\
  map minted_by l = [[(B, 151)]; []; []] /\ map paid_by l = [[]; [mk_payment A coin 101]; []].
Proof.
  destruct (replay PriceToken.exec (PriceToken.mk A (3 * 2 ^ 63) coin, no_money) 1
    [Call (by_ B 5 (Some (coin, 101))) PriceToken.Buy; Call (by_ A 5 None) (PriceToken.Withdraw 0); Call (by_ A 5 None) (PriceToken.Transfer C)]) as [((l, y), k)|] eqn:R; [|vm_compute in R; discriminate].
  exists l, y, k. split; [exact (replay_history _ _ _ _ _ _ _ R)|]. vm_compute in R. injection R as <- <- <-. split.
  { intros x e m J E. cbn [In] in J. repeat destruct J as [<-|J]; try contradiction; injection E as <- <-; discriminate. }
  repeat split.
Qed.

(** Three horses, prices in steps of ten: A and B bet on horse 1, C on horse 2; B gives some to C, C sells; prices grow *)
Definition race0 : option HorseRace.vars := HorseRace.init 3 coin 1 2 4.
Definition race_bets : list (event HorseRace.method) :=
  [Call (by_ A 5 (Some (coin, 4000))) (HorseRace.Buy 1); Call (by_ B 5 (Some (coin, 12000))) (HorseRace.Buy 1); Call (by_ C 6 (Some (coin, 500))) (HorseRace.Buy 2)].
Definition race_trades : list (event HorseRace.method) :=
  [Call (by_ B 7 None) (HorseRace.Transfer C 1000 1); Call (by_ C 7 None) (HorseRace.Sell 1 1000); Call (by_ A 7 (Some (coin, 5000))) (HorseRace.Buy 1); Receive coin 10].
Example C97_case : exists v0 l1 x i l2 y k, race0 = Some v0 /\ history HorseRace.exec (v0, no_money) 1 l1 x i /\ history HorseRace.exec x i l2 y k /\
  current (l1 ++ l2) /\ no_money coin + inflow coin (l1 ++ l2) < 2 ^ 128 /\ (forall j, supply j (HorseRace.wallets (fst x)) <= supply j (HorseRace.wallets (fst y))) /\
  HorseRace.balances (fst x) = [0; 16000; 500] /\ HorseRace.balances (fst y) = [0; 17600; 500] /\ paid_out coin l2 = 3400 /\ bets l2 = 5000 /\
  supply 1 (HorseRace.wallets (fst x)) = 5000 /\ supply 1 (HorseRace.wallets (fst y)) = 5219 /\ snd y coin = 18110.
Proof.
  destruct race0 as [v0|] eqn:I; [|vm_compute in I; discriminate]. destruct (replay HorseRace.exec (v0, no_money) 1 race_bets) as [((l1, x), i)|] eqn:R1; [|vm_compute in I; injection I as <-; vm_compute in R1; discriminate].
  destruct (replay HorseRace.exec x i race_trades) as [((l2, y), k)|] eqn:R2; [|vm_compute in I; injection I as <-; vm_compute in R1; injection R1 as <- <- <-; vm_compute in R2; discriminate].
  exists v0, l1, x, i, l2, y, k. split; auto. split; [exact (replay_history _ _ _ _ _ _ _ R1)|]. split; [exact (replay_history _ _ _ _ _ _ _ R2)|].
  vm_compute in I. injection I as <-. vm_compute in R1. injection R1 as <- <- <-. vm_compute in R2. injection R2 as <- <- <-. split.
  { intros z e m J E. cbn [In app] in J. repeat destruct J as [<-|J]; try contradiction; try (injection E as <- <-; discriminate); discriminate. }
  split; [reflexivity|]. split; [|repeat split]. intros j. cbn [fst HorseRace.wallets supply fold_right snd]. destruct (1 =? j), (2 =? j); lia.
Qed.
(** Not all a holder has can be sold at once: the price of a sale is that of the pot without the value of what is sold, so that who alone has bet gets nothing for all of it, and what was bet stays in the
    contract for ever. *)
Example C97_who_sells_all_gets_nothing : exists v0 l y k, race0 = Some v0 /\ history HorseRace.exec (v0, no_money) 1 l y k /\
  map ev_of l = [Call (by_ A 5 (Some (coin, 4000))) (HorseRace.Buy 1); Call (by_ A 6 None) (HorseRace.Sell 1 2000)] /\ paid_out coin l = 0 /\ pot (fst y) 1 = 4000 /\
  supply 1 (HorseRace.wallets (fst y)) = 0 /\ snd y coin = 4000.
Proof.
  destruct race0 as [v0|] eqn:I; [|vm_compute in I; discriminate].
  destruct (replay HorseRace.exec (v0, no_money) 1 [Call (by_ A 5 (Some (coin, 4000))) (HorseRace.Buy 1); Call (by_ A 6 None) (HorseRace.Sell 1 2000)]) as [((l1, x), i)|] eqn:R1; [|vm_compute in I; injection I as <-; vm_compute in R1; discriminate].
  exists v0, l1, x, i. split; auto. split; [exact (replay_history _ _ _ _ _ _ _ R1)|]. vm_compute in I. injection I as <-. vm_compute in R1. injection R1 as <- <- <-. repeat split.
Qed.
(** and a sale of tokens whose nominal value is above the pot fails *)
Example C97_large_sales_fail : exists v0 l y k, race0 = Some v0 /\ history HorseRace.exec (v0, no_money) 1 l y k /\ length l = 3%nat /\ HorseRace.tokens (HorseRace.wallets (fst y)) A 1 = 5000 /\
  HorseRace.exec (HorseRace.Sell 1 5000) (by_ A 9 None) (begin (by_ A 9 None) (fst y) (snd y)) = None.
Proof.
  destruct race0 as [v0|] eqn:I; [|vm_compute in I; discriminate].
  destruct (replay HorseRace.exec (v0, no_money) 1 [Call (by_ A 5 (Some (coin, 4000))) (HorseRace.Buy 1); Call (by_ B 5 (Some (coin, 12000))) (HorseRace.Buy 1); Call (by_ B 6 None) (HorseRace.Transfer A 3000 1)]) as [((l1, x), i)|] eqn:R1;
    [|vm_compute in I; injection I as <-; vm_compute in R1; discriminate].
  exists v0, l1, x, i. split; auto. split; [exact (replay_history _ _ _ _ _ _ _ R1)|]. vm_compute in I. injection I as <-. vm_compute in R1. injection R1 as <- <- <-. repeat split.
Qed.
