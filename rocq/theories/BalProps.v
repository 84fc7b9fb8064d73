(** C111: balances as the node tells them.  C112: balances as the wallet shows them. *)
Require Import List Arith NArith ZArith Bool Lia Permutation.
From Verif Require Import OrdLib WalletModel WalletSpec WalletProofs WalletCache WalletProps BalModel BalSpec BalProofs.
Import ListNotations.
Open Scope N_scope.

(** What an address holds is what the last block that changed it left. *)
Theorem C111_balance : forall changes a c, get_balance (table_of changes) a c = held changes a c.
Proof. apply balance_held. Qed.
Print Assumptions C111_balance.

(** What some addresses hold together; an address that is named twice counts once. *)
Theorem C111_total :
  forall changes addresses c, held_by changes addresses c < 2 ^ 128 -> get_total_balance (table_of changes) addresses c = held_by changes addresses c.
Proof. intros. apply total_balance. assumption. Qed.
Print Assumptions C111_total.

Lemma sum_le {A} (f g : A -> N) l : (forall a, In a l -> f a <= g a) -> sum (map f l) <= sum (map g l).
Proof. induction l as [|a l IH]; intros H; [reflexivity|]. cbn [map]. rewrite !sum_cons. pose proof (H a (or_introl eq_refl)). assert (sum (map f l) <= sum (map g l)); [apply IH; intros; apply H; right; assumption | lia]. Qed.
Lemma sum_eq {A} (f g : A -> N) l : (forall a, In a l -> f a = g a) -> sum (map f l) = sum (map g l).
Proof. intros H. f_equal. apply map_ext_in, H. Qed.
Lemma sum_zero {A} (f : A -> N) l : (forall a, In a l -> f a = 0) -> sum (map f l) = 0.
Proof. intros H. induction l as [|a l IH]; [reflexivity|]. cbn [map]. rewrite sum_cons, H by (left; reflexivity). rewrite IH; [reflexivity | intros; apply H; right; assumption]. Qed.

Lemma sum_plus {A} (f g : A -> N) l : sum (map (fun a => f a + g a) l) = sum (map f l) + sum (map g l).
Proof. induction l as [|a l IH]; [reflexivity|]. cbn [map]. rewrite !sum_cons, IH. lia. Qed.
Lemma totals_get ws addresses W limit c : NoDup W -> (forall c, held_by ws addresses c < M) ->
  get N.eqb (get_total_balances (table_of ws) addresses W limit) c =
  entry_for (sum (map (fun a => bal (read_rows (table_of ws) W limit a) (a, c)) (set_of addresses))).
Proof.
  intros WD HS. unfold get_total_balances.
  assert (Q : forall c, gsum N.eqb snd (flat_map (read_rows (table_of ws) W limit) (set_of addresses)) c = sum (map (fun a => bal (read_rows (table_of ws) W limit a) (a, c)) (set_of addresses))).
  { intros c'. rewrite gsum_flat. apply sum_eq. intros a HA. rewrite (gsum_cur a) by apply rows_a. apply gsum_keys. apply rows_nodup. exact WD. }
  change (fun (totals : list (N * N)) (r : key * N) => if snd r =? 0 then totals else addm totals (snd (fst r)) (snd r)) with (gadd N.eqb N.ltb snd).
  rewrite (gadd_fold N.eqb N.ltb snd N.eqb_spec _ [] (fun _ => 0)).
  - rewrite Q. reflexivity.
  - reflexivity.
  - intros k. rewrite Q. specialize (HS k). rewrite held_by_set in HS. eapply N.le_lt_trans; [|exact HS]. cbn. apply sum_le. intros a HA.
    destruct (bal_rows ws W limit a k) as [-> | (-> & _)]; lia.
Qed.

(** The balances of some addresses: for every currency that is asked for the sum, and no entry where there is nothing. *)
Theorem C111_totals :
  forall changes addresses whitelist limit c,
    NoDup whitelist -> no_ones changes -> limit_enough changes addresses limit -> (forall c, held_by changes addresses c < 2 ^ 128) ->
    get N.eqb (get_total_balances (table_of changes) addresses whitelist limit) c = if wanted whitelist c then entry_for (held_by changes addresses c) else None.
Proof.
  intros ws addresses W limit c WD NO LE HS. rewrite totals_get by assumption.
  rewrite (sum_eq _ (fun a => if wanted W c then held ws a c else 0)).
  - rewrite held_by_set. destruct (wanted W c); [reflexivity|]. rewrite (sum_zero (fun _ => 0)); auto.
  - intros a HA. apply (bal_full ws W WD addresses); auto. apply set_of_in. exact HA.
Qed.
Print Assumptions C111_totals.

(** Whatever the limit is, no more is reported than there is. *)
Theorem C111_never_more :
  forall changes addresses whitelist limit c v,
    NoDup whitelist -> (forall c, held_by changes addresses c < 2 ^ 128) ->
    get N.eqb (get_total_balances (table_of changes) addresses whitelist limit) c = Some v ->
    wanted whitelist c = true /\ 0 < v <= held_by changes addresses c.
Proof.
  intros ws addresses W limit c v WD HS E. rewrite totals_get in E by assumption. unfold entry_for in E. set (s := sum _) in E.
  destruct (N.eqb_spec s 0) as [|HZ]; [discriminate|]. injection E as <-. subst s. split.
  - destruct (wanted W c) eqn:HW; [reflexivity|]. exfalso. apply HZ. apply sum_zero. intros a HA. destruct (bal_rows ws W limit a c) as [? | (_ & ?)]; [assumption | congruence].
  - split; [lia|]. rewrite held_by_set. apply sum_le. intros a HA. destruct (bal_rows ws W limit a c) as [-> | (-> & _)]; lia.
Qed.
Print Assumptions C111_never_more.

Lemma all_get ws addresses W limit a c : NoDup W -> (forall a c, held ws a c < M) ->
  get key_eqb (get_all_balances (table_of ws) addresses W limit) (a, c) = entry_for (if existsb (N.eqb a) addresses then bal (read_rows (table_of ws) W limit a) (a, c) else 0).
Proof.
  intros WD HS. unfold get_all_balances.
  assert (Q : forall k, gsum key_eqb (fun k => k) (flat_map (read_rows (table_of ws) W limit) (set_of addresses)) k =
    if existsb (N.eqb (fst k)) addresses then bal (read_rows (table_of ws) W limit (fst k)) k else 0).
  { intros (a', c'). cbn [fst]. rewrite gsum_flat.
    assert (Q : forall A, NoDup A -> sum (map (fun x => gsum key_eqb (fun k => k) (read_rows (table_of ws) W limit x) (a', c')) A) =
      if existsb (N.eqb a') A then bal (read_rows (table_of ws) W limit a') (a', c') else 0).
    { intros A HA. induction HA as [|x A HN HA IH]; [reflexivity|]. cbn [map existsb]. rewrite sum_cons, IH. destruct (N.eqb_spec a' x) as [<-|HX].
      - cbn [orb]. rewrite gsum_keys by (apply rows_nodup, WD). destruct (existsb (N.eqb a') A) eqn:E; [|lia]. apply existsb_exists in E. destruct E as (y & HY & HE).
        apply N.eqb_eq in HE. subst. contradiction.
      - cbn [orb]. rewrite (gsum_other x); [lia | apply rows_a | cbn; congruence]. }
    rewrite Q by apply set_of_nodup. assert (existsb (N.eqb a') (set_of addresses) = existsb (N.eqb a') addresses) as ->; [|reflexivity].
    apply eq_true_iff_eq. rewrite !existsb_exists. split; intros (x & HI & HE); exists x; (split; [apply set_of_in; exact HI | exact HE]). }
  change (fun (totals : list (key * N)) (r : key * N) => if snd r =? 0 then totals else setb totals (fst r) (add128 (bal totals (fst r)) (snd r))) with (gadd key_eqb key_ltb (fun k => k)).
  rewrite (gadd_fold key_eqb key_ltb (fun k => k) key_eqb_spec _ [] (fun _ => 0)).
  - rewrite Q. reflexivity.
  - reflexivity.
  - intros (a', c'). rewrite Q. cbn [fst]. specialize (HS a' c'). cbn. destruct (existsb (N.eqb a') addresses); [|lia]. destruct (bal_rows ws W limit a' c') as [-> | (-> & _)]; lia.
Qed.

(** The same, address by address. *)
Theorem C111_all :
  forall changes addresses whitelist limit a c,
    NoDup whitelist -> no_ones changes -> limit_enough changes addresses limit -> (forall a c, held changes a c < 2 ^ 128) ->
    get key_eqb (get_all_balances (table_of changes) addresses whitelist limit) (a, c) =
    if existsb (N.eqb a) addresses && wanted whitelist c then entry_for (held changes a c) else None.
Proof.
  intros ws addresses W limit a c WD NO LE HS. rewrite all_get by assumption. destruct (existsb (N.eqb a) addresses) eqn:E; [|reflexivity]. cbn [andb].
  rewrite (bal_full ws W WD addresses); auto.
  - destruct (wanted W c); reflexivity.
  - apply existsb_exists in E. destruct E as (x & HI & HE). apply N.eqb_eq in HE. subst. exact HI.
Qed.
Print Assumptions C111_all.

(** A contract: all of it is locked, or all can be spent, and together it is what the contract holds. *)
Theorem C111_contract :
  forall changes is_locked address whitelist limit c,
    NoDup whitelist -> no_ones changes -> limit_enough changes [address] limit -> (forall a c, held changes a c < 2 ^ 128) ->
    get N.eqb (get_contract_balances (table_of changes) is_locked address whitelist limit) c =
    let v := held changes address c in
    if wanted whitelist c && negb (v =? 0)
    then Some (mk_balance (if is_locked then 0 else v) 0 (if is_locked then v else 0) v (match whitelist with [] => false | _ => true end)) else None.
Proof.
  intros ws L a W limit c WD NO LE HS. assert (HB : forall c, held_by ws [a] c = held ws a c) by (intros; unfold held_by; cbn; lia).
  pose proof (C111_totals ws [a] W limit c WD NO LE) as Q. rewrite HB in Q. assert (HQ : forall c, held_by ws [a] c < 2 ^ 128) by (intros; rewrite HB; apply HS). specialize (Q HQ).
  unfold get_contract_balances. revert Q. generalize (get_total_balances (table_of ws) [a] W limit). intros l Q. cbv zeta.
  assert (G : forall g : N -> balance, get N.eqb (map (fun e : N * N => (fst e, g (snd e))) l) c = match get N.eqb l c with Some v => Some (g v) | None => None end).
  { intros g. clear. induction l as [|[c' v] l IH]; [reflexivity|]. cbn. destruct (c' =? c); [reflexivity | exact IH]. }
  rewrite (G (fun v => mk_balance (if L then 0 else v) 0 (if L then v else 0) v _)), Q. unfold entry_for.
  destruct (wanted W c); [|reflexivity]. cbn [andb]. destruct (held ws a c =? 0); reflexivity.
Qed.
Print Assumptions C111_contract.

(** One address *)
Theorem C111_one :
  forall changes address whitelist limit c,
    NoDup whitelist -> no_ones changes -> limit_enough changes [address] limit -> (forall a c, held changes a c < 2 ^ 128) ->
    get N.eqb (get_balances (table_of changes) address whitelist limit) c = if wanted whitelist c then entry_for (held changes address c) else None.
Proof.
  intros ws a W limit c WD NO LE HS. assert (HB : forall c, held_by ws [a] c = held ws a c) by (intros; unfold held_by; cbn; lia).
  rewrite <- HB. apply C111_totals; auto. intros c'. rewrite HB. apply HS.
Qed.
Print Assumptions C111_one.

Example C111_case :
  let ch := [((7, 0), 100); ((7, 3), 5); ((8, 0), 20); ((7, 3), 0); ((7, 4), 9); ((8, 4), 1)] in
  get_total_balances (table_of ch) [8; 7; 8] [] (-1) = [(0, 120); (4, 10)] /\ get_total_balances (table_of ch) [8; 7] [3; 4] 100 = [(4, 10)] /\
  get_all_balances (table_of ch) [7] [] 3 = [((7, 0), 100); ((7, 4), 9)] /\ get_total_balance (table_of ch) [8; 7; 8] 4 = 10 /\
  no_ones ch /\ limit_enough ch [8; 7; 8] (-1) /\ limit_enough ch [7] 3.
Proof.
  cbv zeta. split; [reflexivity|]. split; [reflexivity|]. split; [reflexivity|]. split; [reflexivity|]. split.
  - unfold no_ones. repeat constructor.
  - unfold limit_enough. split; (split; [lia|]; split; [cbn; lia|]).
    + left. lia.
    + right. intros a [<-|[]]. vm_compute. discriminate.
Qed.

(** With a limit, funds may be missing.  An address was sent 100 tokens, once each, and has sent them on; it holds 5 of another one.  Asked with the default limit of 100, the node
    reports nothing at all. *)
Definition dust (n : nat) : list (key * N) := map (fun c => ((7, N.of_nat c), 0)) (seq 1 n).
Theorem C111_limit_refuted :
  exists changes, no_ones changes /\ get_balance (table_of changes) 7 200 = 5 /\ get_total_balances (table_of changes) [7] [] 100 = [].
Proof.
  exists (dust 100 ++ [((7, 200), 5)]). split; [|split].
  - unfold no_ones, dust. apply Forall_app. split; [|repeat constructor]. apply Forall_forall. intros w H. apply in_map_iff in H. destruct H as (n & <- & H). apply in_seq in H.
    cbn [fst snd]. assert (1000 < ones) by reflexivity. lia.
  - vm_compute. reflexivity.
  - vm_compute. reflexivity.
Qed.
Print Assumptions C111_limit_refuted.

(** C112 *)
Definition fcur (l : list (key * N)) (c : N) : N := funds l c.
Lemma fcur_cons x l c : fcur (x :: l) c = (if snd (fst x) =? c then snd x else 0) + fcur l c.
Proof. destruct x as [[a b] v]. unfold fcur, funds. cbn [filter fst snd]. destruct (b =? c); [apply sum_cons | reflexivity]. Qed.
Lemma b_at_set m c b c' : b_at (b_set m c b) c' = if c =? c' then b else b_at m c'.
Proof. unfold b_at, b_set. rewrite (get_put N.eqb N.ltb N.eqb_spec). destruct (c =? c'); reflexivity. Qed.
(** two balances that agree up to the total *)
Definition like (b : balance) (s r l : N) : Prop := spendable b = s /\ reserved b = r /\ locked b = l.
Lemma fold_spendable l : forall m c s r k, like (b_at m c) s r k -> s + fcur l c < M ->
  like (b_at (fold_left (fun m e => add_spendable m (snd (fst e)) (snd e)) l m) c) (s + fcur l c) r k.
Proof.
  induction l as [|[[a0 c0] v0] l IH]; intros m c s r k H HS; cbn [fold_left]; [replace (fcur [] c) with 0 by reflexivity; rewrite N.add_0_r; exact H|]. rewrite fcur_cons in HS |- *. cbn [fst snd] in HS |- *. rewrite N.add_assoc in HS |- *.
  apply IH; [|exact HS]. unfold add_spendable. cbv zeta. rewrite b_at_set. destruct (N.eqb_spec c0 c) as [->|_]; [|rewrite N.add_0_r; exact H].
  destruct H as (-> & -> & ->). unfold like. cbn [spendable reserved locked]. rewrite add_small by lia. auto.
Qed.
Lemma fold_reserved l : forall m c s r k, like (b_at m c) s r k -> r + fcur l c < M ->
  like (b_at (fold_left (fun m e => add_reserved m (snd (fst e)) (snd e)) l m) c) s (r + fcur l c) k.
Proof.
  induction l as [|[[a0 c0] v0] l IH]; intros m c s r k H HS; cbn [fold_left]; [replace (fcur [] c) with 0 by reflexivity; rewrite N.add_0_r; exact H|]. rewrite fcur_cons in HS |- *. cbn [fst snd] in HS |- *. rewrite N.add_assoc in HS |- *.
  apply IH; [|exact HS]. unfold add_reserved. cbv zeta. rewrite b_at_set. destruct (N.eqb_spec c0 c) as [->|_]; [|rewrite N.add_0_r; exact H].
  destruct H as (-> & -> & ->). unfold like. cbn [spendable reserved locked]. rewrite add_small by lia. auto.
Qed.
Lemma fold_locked l : forall m c s r k, like (b_at m c) s r k -> k + total l c < M ->
  like (b_at (fold_left (fun m e => add_locked m (fst e) (snd e)) l m) c) s r (k + total l c).
Proof.
  induction l as [|[c0 v0] l IH]; intros m c s r k H HS; cbn [fold_left]; [replace (total [] c) with 0 by reflexivity; rewrite N.add_0_r; exact H|]. rewrite sumc_cons in HS |- *. cbn [fst snd] in HS |- *. rewrite N.add_assoc in HS |- *.
  apply IH; [|exact HS]. unfold add_locked. cbv zeta. rewrite b_at_set. destruct (N.eqb_spec c0 c) as [->|_]; [|rewrite N.add_0_r; exact H].
  destruct H as (-> & -> & ->). unfold like. cbn [spendable reserved locked]. rewrite add_small by lia. auto.
Qed.
Lemma fold_pending p : forall m c s r k, like (b_at m c) s r k -> r + sum (map (fun x : N * list (key * N) => fcur (snd x) c) p) < M ->
  like (b_at (fold_left (fun m p => fold_left (fun m e => add_reserved m (snd (fst e)) (snd e)) (snd p) m) p m) c) s (r + sum (map (fun x => fcur (snd x) c) p)) k.
Proof.
  induction p as [|x p IH]; intros m c s r k H HS; cbn [fold_left map] in *; [cbn; rewrite N.add_0_r; exact H|]. rewrite sum_cons in HS |- *. rewrite N.add_assoc in HS |- *.
  apply IH; [|exact HS]. apply fold_reserved; [exact H | lia].
Qed.
Lemma zeros W : forall m c, like (b_at m c) 0 0 0 -> like (b_at (fold_left (fun m c => b_set m c no_balance) W m) c) 0 0 0.
Proof. induction W as [|w W IH]; intros m c H; [exact H|]. cbn [fold_left]. apply IH. rewrite b_at_set. destruct (w =? c); [repeat split | exact H]. Qed.
Lemma wallet_like w ext W wz c :
  c_reserved w = [] -> fcur (c_balance w) c + sum (map (fun x => fcur (snd x) c) (c_pending w)) + total ext c < M ->
  let b := b_at (wallet_balances w ext W wz) c in
  like b (fcur (c_balance w) c) (sum (map (fun x => fcur (snd x) c) (c_pending w))) (total ext c) /\ b_total b = spendable b + reserved b + locked b.
Proof.
  intros HR HS. unfold wallet_balances. rewrite HR. cbn [fold_left]. cbv zeta. set (m0 := if wz then _ else _).
  assert (H0 : like (b_at m0 c) 0 0 0) by (subst m0; destruct wz; [apply zeros|]; repeat split). clearbody m0.
  pose proof (fold_spendable (c_balance w) m0 c 0 0 0 H0 ltac:(lia)) as H1.
  pose proof (fold_pending (c_pending w) _ c _ _ _ H1 ltac:(lia)) as H2.
  pose proof (fold_locked ext _ c _ _ _ H2 ltac:(lia)) as H3. clear H0 H1 H2. rewrite !N.add_0_l in H3. revert H3.
  match goal with |- like (b_at ?m c) _ _ _ -> _ => generalize m end. intros m H3.
  assert (G : forall g : N -> balance -> balance, get N.eqb (map (fun e : N * balance => (fst e, g (fst e) (snd e))) m) c = match get N.eqb m c with Some v => Some (g c v) | None => None end).
  { intros g. clear. induction m as [|[c' v] m IH]; [reflexivity|]. cbn. destruct (N.eqb_spec c' c) as [->|]; [reflexivity | exact IH]. }
  unfold b_at in *. rewrite (G (fun c b => mk_balance (spendable b) (reserved b) (locked b) (add128 (add128 (spendable b) (reserved b)) (locked b)) (existsb (N.eqb c) W))).
  destruct (get N.eqb m c) as [b|].
  - destruct H3 as (E1 & E2 & E3). unfold like. cbn [spendable reserved locked b_total]. rewrite E1, E2, E3. split; [auto|]. rewrite (add_small (fcur _ _)) by lia. rewrite add_small by lia. reflexivity.
  - split; [exact H3|]. reflexivity.
Qed.

Lemma sum_point (A : list N) a0 v g : NoDup A -> sum (map (fun a => (if a =? a0 then v else 0) + g a) A) = (if existsb (N.eqb a0) A then v else 0) + sum (map g A).
Proof.
  intros HA. induction HA as [|x A HN HA IH]; [reflexivity|]. cbn [map existsb]. rewrite !sum_cons, IH. rewrite (N.eqb_sym a0 x). destruct (N.eqb_spec x a0) as [->|]; cbn [orb]; [|lia].
  destruct (existsb (N.eqb a0) A) eqn:E; [|lia]. apply existsb_exists in E. destruct E as (y & HY & HE). apply N.eqb_eq in HE. subst. contradiction.
Qed.
Lemma fcur_over l c A : NoDup (map fst l) -> NoDup A -> (forall a, ~ In a A -> bal l (a, c) = 0) -> fcur l c = sum (map (fun a => bal l (a, c)) A).
Proof.
  intros HL HA. induction l as [|[[a0 c0] v] l IH]; intros HZ; [rewrite sum_zero; reflexivity|]. inversion HL as [|x y HN HL']; subst. rewrite fcur_cons. cbn [fst snd] in *.
  assert (E0 : bal l (a0, c0) = 0). { unfold bal, at0. rewrite (proj2 (get_none key_eqb key_ltb key_eqb_spec l (a0, c0)) HN). reflexivity. }
  assert (EB : forall a, bal (((a0, c0), v) :: l) (a, c) = (if a =? a0 then if c0 =? c then v else 0 else 0) + bal l (a, c)).
  { intros a. unfold bal, at0 in *. cbn [get]. unfold key_eqb at 1. cbn [fst snd]. rewrite (N.eqb_sym a a0). destruct (N.eqb_spec a0 a) as [->|]; cbn [andb]; [|reflexivity].
    destruct (N.eqb_spec c0 c) as [->|]; [|reflexivity]. rewrite E0. lia. }
  rewrite (sum_eq _ _ _ (fun a _ => EB a)). rewrite sum_point by exact HA. rewrite IH.
  - f_equal. destruct (N.eqb_spec c0 c) as [->|]; [|destruct (existsb _ _); reflexivity]. destruct (existsb (N.eqb a0) A) eqn:E; [reflexivity|].
    assert (NI : ~ In a0 A). { intros HI. assert (existsb (N.eqb a0) A = true) by (apply existsb_exists; exists a0; split; [exact HI | apply N.eqb_refl]). congruence. }
    specialize (HZ a0 NI). rewrite EB, !N.eqb_refl in HZ. lia.
  - exact HL'.
  - intros a NI. specialize (HZ a NI). rewrite EB in HZ. lia.
Qed.
Lemma pending_over p c A : Forall (fun x : N * list (key * N) => NoDup (map fst (snd x))) p -> NoDup A -> (forall a, ~ In a A -> psum p (fun _ => true) (a, c) = 0) ->
  sum (map (fun x => fcur (snd x) c) p) = sum (map (fun a => psum p (fun _ => true) (a, c)) A).
Proof.
  intros HP HA. induction HP as [|x p H1 HP IH]; intros HZ; [rewrite (sum_zero (fun a => psum [] (fun _ => true) (a, c))); reflexivity|]. cbn [map]. rewrite sum_cons.
  rewrite (sum_eq (fun a => psum (x :: p) (fun _ => true) (a, c)) (fun a => bal (snd x) (a, c) + psum p (fun _ => true) (a, c))) by (intros; apply psum_cons).
  assert (HQ : forall a, ~ In a A -> bal (snd x) (a, c) = 0 /\ psum p (fun _ => true) (a, c) = 0). { intros a NI. specialize (HZ a NI). rewrite psum_cons in HZ. lia. }
  rewrite IH by (intros a NI; apply HQ, NI). rewrite (fcur_over (snd x) c A H1 HA) by (intros a NI; apply HQ, NI).
  symmetry. apply sum_plus.
Qed.

(** Whatever the wallet went through, for every currency it shows: as spendable what the node reported last less what was sent since and is still open, as reserved what is open,
    as locked what its contracts and its liquidity are worth, and the total of the three.  If no more was sent than there is, then the total is what the node reported and what is locked.
    [addresses]: any list that has all addresses where there is something or something is open. *)
Theorem C112_wallet :
  forall own events ext whitelist with_zero addresses c,
    Forall (event_ok own) events ->
    let '(balances, out) := known events [] [] in
    let b := b_at (wallet_balances (fold_left (happen own) events reset_cache) ext whitelist with_zero) c in
    NoDup addresses -> (forall a, ~ In a addresses -> bal balances (a, c) = 0 /\ committed own out (a, c) = 0) ->
    sum (map (fun a => bal balances (a, c)) addresses) + sum (map (fun a => committed own out (a, c)) addresses) + total ext c < 2 ^ 128 ->
    spendable b = sum (map (fun a => bal balances (a, c) - committed own out (a, c)) addresses) /\
    reserved b = sum (map (fun a => committed own out (a, c)) addresses) /\
    locked b = total ext c /\ b_total b = spendable b + reserved b + locked b /\
    ((forall a, In a addresses -> committed own out (a, c) <= bal balances (a, c)) -> b_total b = sum (map (fun a => bal balances (a, c)) addresses) + total ext c).
Proof.
  intros own events ext W wz A c HE. pose proof (known_inv own events reset_cache [] [] (inv_reset own) HE) as I. destruct (known events [] []) as (rep, out). cbn [fst snd] in I.
  set (w := fold_left (happen own) events reset_cache) in *. clearbody w. cbv zeta. intros HA HZ HS. change (2 ^ 128) with M in HS.
  assert (E1 : fcur (c_balance w) c = sum (map (fun a => bal rep (a, c) - committed own out (a, c)) A)).
  { rewrite (fcur_over _ c A).
    - apply sum_eq. intros a _. apply (inv_bal _ _ _ _ I).
    - apply (inv_map _ _ _ _ I).
    - exact HA.
    - intros a NI. rewrite (inv_bal _ _ _ _ I). destruct (HZ a NI) as (-> & ->). reflexivity. }
  assert (E2 : sum (map (fun x => fcur (snd x) c) (c_pending w)) = sum (map (fun a => committed own out (a, c)) A)).
  { rewrite (pending_over _ c A).
    - apply sum_eq. intros a _. rewrite (inv_sum _ _ _ _ I), committed_osum. reflexivity.
    - apply (inv_keys _ _ _ _ I).
    - exact HA.
    - intros a NI. rewrite (inv_sum _ _ _ _ I), <- committed_osum. apply HZ, NI. }
  assert (LE : sum (map (fun a => bal rep (a, c) - committed own out (a, c)) A) <= sum (map (fun a => bal rep (a, c)) A)) by (apply sum_le; intros; lia).
  destruct (wallet_like w ext W wz c (inv_res _ _ _ _ I)) as ((H1 & H2 & H3) & H4); [rewrite E1, E2; lia|]. rewrite E1 in H1. rewrite E2 in H2.
  split; [exact H1|]. split; [exact H2|]. split; [exact H3|]. split; [exact H4|]. intros HC. rewrite H4, H1, H2, H3. f_equal.
  clear - HC. induction A as [|a A IH]; [reflexivity|]. cbn [map]. rewrite !sum_cons. pose proof (HC a (or_introl eq_refl)). rewrite <- IH by (intros; apply HC; right; assumption). lia.
Qed.
Print Assumptions C112_wallet.
(** The same when one currency is asked for *)
Theorem C112_one :
  forall own events ext whitelist addresses c,
    Forall (event_ok own) events ->
    let '(balances, out) := known events [] [] in
    let b := wallet_balance (fold_left (happen own) events reset_cache) ext whitelist c in
    NoDup addresses -> (forall a, ~ In a addresses -> bal balances (a, c) = 0 /\ committed own out (a, c) = 0) ->
    sum (map (fun a => bal balances (a, c)) addresses) + sum (map (fun a => committed own out (a, c)) addresses) + total ext c < 2 ^ 128 ->
    spendable b = sum (map (fun a => bal balances (a, c) - committed own out (a, c)) addresses) /\
    reserved b = sum (map (fun a => committed own out (a, c)) addresses) /\
    locked b = total ext c /\ b_total b = spendable b + reserved b + locked b /\
    ((forall a, In a addresses -> committed own out (a, c) <= bal balances (a, c)) -> b_total b = sum (map (fun a => bal balances (a, c)) addresses) + total ext c).
Proof. intros own events ext W A c HE. exact (C112_wallet own events ext W false A c HE). Qed.
Print Assumptions C112_one.

Lemma all_ok ws addresses W limit : NoDup W -> (forall a c, held ws a c < M) -> balances_ok (get_all_balances (table_of ws) addresses W limit).
Proof.
  intros WD HS. assert (ND : NoDup (map fst (get_all_balances (table_of ws) addresses W limit))).
  { unfold get_all_balances. apply fold_nodup; [|constructor]. intros m r H. destruct (snd r =? 0); [exact H | apply setb_nodup, H]. }
  split; [exact ND|]. apply Forall_forall. intros [[a c] v] HI. cbn [snd]. pose proof (all_get ws addresses W limit a c WD HS) as Q.
  rewrite (get_nodup key_eqb key_eqb_spec _ _ _ ND HI) in Q. unfold entry_for in Q. change (2 ^ 128) with M. specialize (HS a c). destruct (existsb (N.eqb a) addresses); [|discriminate].
  destruct (_ =? 0); [discriminate|]. injection Q as ->. destruct (bal_rows ws W limit a c) as [-> | (-> & _)]; [apply M_pos | exact HS].
Qed.
Lemma total_nodup (l : list (N * N)) c : NoDup (map fst l) -> total l c = at0 N.eqb l c.
Proof.
  induction l as [|[c' v] l IH]; intros H; [reflexivity|]. inversion H as [|x y HN HD]; subst. rewrite sumc_cons, IH by exact HD. unfold at0. cbn [get fst snd].
  destruct (N.eqb_spec c' c) as [->|]; [|lia]. rewrite (proj2 (get_none N.eqb N.ltb N.eqb_spec l c) HN). lia.
Qed.
Lemma addm_fold l : forall m c, NoDup (map fst m) -> at0 N.eqb m c + total l c < M ->
  NoDup (map fst (fold_left (fun m e => addm m (fst e) (snd e)) l m)) /\ at0 N.eqb (fold_left (fun m e => addm m (fst e) (snd e)) l m) c = at0 N.eqb m c + total l c.
Proof.
  induction l as [|[c' v] l IH]; intros m c ND HS; cbn [fold_left]; [split; [exact ND | unfold total; cbn; lia]|]. rewrite sumc_cons in HS |- *. cbn [fst snd] in *.
  assert (E : at0 N.eqb (addm m c' v) c = at0 N.eqb m c + if c' =? c then v else 0).
  { unfold addm. rewrite (at_put N.eqb N.ltb N.eqb_spec). destruct (N.eqb_spec c' c) as [->|]; [apply add_small|]; lia. }
  destruct (IH (addm m c' v) c) as (A & B); [apply (put_nodup N.eqb N.ltb N.eqb_spec); exact ND | rewrite E; lia|]. split; [exact A|]. rewrite B, E. lia.
Qed.
Lemma totals_nodup t addresses W limit : NoDup (map fst (get_total_balances t addresses W limit)).
Proof.
  unfold get_total_balances. generalize (flat_map (read_rows t W limit) (set_of addresses)). intros R.
  assert (Q : forall m : list (N * N), NoDup (map fst m) -> NoDup (map fst (fold_left (fun totals r => if snd r =? 0 then totals else addm totals (snd (fst r)) (snd r)) R m))); [|apply Q; constructor].
  induction R as [|[k0 v0] R IH]; intros m H; [exact H|]. cbn [fold_left fst snd]. apply IH. destruct (v0 =? 0); [exact H | apply (put_nodup N.eqb N.ltb N.eqb_spec), H].
Qed.

(** From the chain to what is shown: a wallet with nothing open, right after it asked the node, shows for every token of its list what its addresses hold, what its contracts hold and
    what its liquidity is worth. *)
Theorem C112_chain :
  forall own changes addresses contracts liquidity whitelist limit history height with_zero c,
    NoDup whitelist -> no_ones changes -> (- 2 ^ 31 <= limit < 2 ^ 31)%Z -> N.of_nat (length changes) < 2 ^ 63 -> whitelist <> [] ->
    (forall a c, held changes a c < 2 ^ 128) -> (forall c, held_by changes addresses c + held_by changes contracts c + total liquidity c < 2 ^ 128) ->
    let ws := fold_left (happen own) [Heard (get_all_balances (table_of changes) addresses whitelist limit) history height] reset_cache in
    let b := b_at (wallet_balances ws (external (table_of changes) contracts whitelist limit liquidity) whitelist with_zero) c in
    spendable b = (if wanted whitelist c then held_by changes addresses c else 0) /\ reserved b = 0 /\
    locked b = (if wanted whitelist c then held_by changes contracts c else 0) + total liquidity c /\
    b_total b = spendable b + locked b.
Proof.
  intros own ch addresses contracts liq W limit history height wz c WD NO LR LL WN HH HS. cbv zeta. change (2 ^ 128) with M in *.
  assert (LE : forall l c, (forall c, held_by ch l c < M) -> get N.eqb (get_total_balances (table_of ch) l W limit) c = if wanted W c then entry_for (held_by ch l c) else None).
  { intros l c' HL. rewrite totals_get by assumption. rewrite (sum_eq _ (fun a => if wanted W c' then held ch a c' else 0)).
    - rewrite held_by_set. destruct (wanted W c'); [reflexivity|]. rewrite (sum_zero (fun _ => 0)); auto.
    - intros a HA. assert (Q : bal (read_rows (table_of ch) W limit a) (a, c') = bal (read_rows (table_of ch) W (-1) a) (a, c')) by (unfold read_rows; destruct W; [contradiction | reflexivity]).
      rewrite Q. apply (bal_full ch W WD [a]); auto; [|left; reflexivity]. split; [lia|]. split; [exact LL | left; lia]. }
  assert (AL : forall a c, bal (get_all_balances (table_of ch) addresses W limit) (a, c) = if existsb (N.eqb a) addresses && wanted W c then held ch a c else 0).
  { intros a c'. unfold bal, at0. rewrite all_get by assumption. destruct (existsb (N.eqb a) addresses) eqn:E; [|reflexivity]. cbn [andb].
    assert (Q : bal (read_rows (table_of ch) W limit a) (a, c') = bal (read_rows (table_of ch) W (-1) a) (a, c')) by (unfold read_rows; destruct W; [contradiction | reflexivity]).
    rewrite Q, (bal_full ch W WD [a]); auto; [|split; [lia|]; split; [exact LL | left; lia]|left; reflexivity].
    unfold entry_for. destruct (wanted W c'); [|reflexivity]. destruct (N.eqb_spec (held ch a c') 0); auto. }
  assert (EX : total (external (table_of ch) contracts W limit liq) c = (if wanted W c then held_by ch contracts c else 0) + total liq c).
  { unfold external. pose proof (totals_nodup (table_of ch) contracts W limit) as ND. pose proof (LE contracts c ltac:(intros c'; specialize (HS c'); lia)) as Q.
    assert (E0 : total (get_total_balances (table_of ch) contracts W limit) c = if wanted W c then held_by ch contracts c else 0).
    { rewrite total_nodup by exact ND. unfold at0. rewrite Q. unfold entry_for. destruct (wanted W c); [|reflexivity]. destruct (N.eqb_spec (held_by ch contracts c) 0); auto. }
    specialize (HS c). destruct (addm_fold (get_total_balances (table_of ch) contracts W limit) [] c) as (A & B); [constructor | rewrite E0; unfold at0; cbn; destruct (wanted W c); lia|].
    destruct (addm_fold liq (fold_left (fun m e => addm m (fst e) (snd e)) (get_total_balances (table_of ch) contracts W limit) []) c A) as (C & D); [rewrite B, E0; unfold at0; cbn; destruct (wanted W c); lia|].
    rewrite total_nodup by exact C. rewrite D, B, E0. reflexivity. }
  pose proof (C112_wallet own [Heard (get_all_balances (table_of ch) addresses W limit) history height] (external (table_of ch) contracts W limit liq) W wz (nodup N.eq_dec addresses) c) as H.
  cbn [known filter map] in H. rewrite EX in H.
  assert (SB : sum (map (fun a => bal (get_all_balances (table_of ch) addresses W limit) (a, c)) (nodup N.eq_dec addresses)) = if wanted W c then held_by ch addresses c else 0).
  { rewrite (sum_eq _ (fun a => if wanted W c then held ch a c else 0)).
    - unfold held_by. destruct (wanted W c); [reflexivity | apply sum_zero; reflexivity].
    - intros a HA. rewrite AL. assert (existsb (N.eqb a) addresses = true) as ->; [|reflexivity]. apply nodup_In in HA. apply existsb_exists. exists a. split; [exact HA | apply N.eqb_refl]. }
  assert (SC : sum (map (fun a => committed own [] (a, c)) (nodup N.eq_dec addresses)) = 0) by (apply sum_zero; reflexivity).
  assert (SD : sum (map (fun a => bal (get_all_balances (table_of ch) addresses W limit) (a, c) - committed own [] (a, c)) (nodup N.eq_dec addresses)) = if wanted W c then held_by ch addresses c else 0).
  { rewrite <- SB. apply sum_eq. intros a _. unfold committed. cbn. apply N.sub_0_r. }
  rewrite SB, SC, SD in H. destruct H as (H1 & H2 & H3 & H4 & _).
  - constructor; [apply all_ok; assumption | constructor].
  - apply NoDup_nodup.
  - intros a NI. split; [|reflexivity]. rewrite AL. destruct (existsb (N.eqb a) addresses) eqn:E; [|reflexivity]. exfalso. apply NI. apply nodup_In. apply existsb_exists in E.
    destruct E as (x & HI & HE). apply N.eqb_eq in HE. subst. exact HI.
  - change (2 ^ 128) with M. specialize (HS c). destruct (wanted W c); lia.
  - split; [exact H1|]. split; [exact H2|]. split; [exact H3|]. rewrite H4, H2. lia.
Qed.
Print Assumptions C112_chain.

Example C112_case :
  let own a := (a =? 11) || (a =? 12) in
  let ch := [((11, 0), 100); ((12, 0), 50); ((12, 5), 8); ((40, 5), 3)] in
  let t := mk_tx [mk_in 11 0 70] [(0, 70)] [] (Some 12) in
  let heard := Heard (get_all_balances (table_of ch) [11; 12] [0; 5] 100) [] 10 in
  let w := fold_left (happen own) [heard; Marked 1 100 (Some 2) t] reset_cache in
  let ext := external (table_of ch) [40] [0; 5] 100 [(0, 9)] in
  wallet_balances w ext [0; 5] false = [(0, mk_balance 78 72 9 159 true); (5, mk_balance 8 0 3 11 true)] /\
  Forall (event_ok own) [heard; Marked 1 100 (Some 2) t] /\ snd (known [heard; Marked 1 100 (Some 2) t] [] []) = [mk_sent 1 100 2 t].
Proof.
  cbv zeta. split; [vm_compute; reflexivity|]. split; [|reflexivity]. constructor; [|constructor; [|constructor]].
  - cbn [event_ok]. split; [repeat constructor; vm_compute; intuition discriminate|]. apply Forall_forall. intros x H. vm_compute in H. intuition (subst; reflexivity).
  - intros k. unfold commits. cbn [s_tx t_inputs t_sender s_fee]. unfold taken. cbn [filter i_address i_contract i_amount].
    assert (Q : forall a b c : bool, (if a then sum (map i_amount (if b then [mk_in 11 0 70] else [])) else 0) + (if c then 2 else 0) < 2 ^ 128) by (intros [] [] []; reflexivity). apply Q.
Qed.

(** A wallet shows funds that it does not have.  It signed a transaction whose fee another wallet pays (address 99): the fee is shown as its own, reserved. *)
Theorem C112_total_refuted :
  exists own events ext whitelist c,
    Forall (event_ok own) events /\
    let '(balances, out) := known events [] [] in
    let b := b_at (wallet_balances (fold_left (happen own) events reset_cache) ext whitelist false) c in
    (forall k, own (fst k) = true -> committed own out k <= bal balances k) /\ funds balances c + total ext c < b_total b.
Proof.
  exists (fun a => a =? 11), [Heard [((11, 0), 100)] [] 10; Marked 1 100 (Some 30) (mk_tx [mk_in 11 0 70] [(0, 70)] [] (Some 99))], [], [0], 0. split.
  - constructor; [|constructor; [|constructor]].
    + split; [repeat constructor; vm_compute; intuition discriminate | repeat constructor].
    + intros k. unfold commits. cbn [s_tx t_inputs t_sender s_fee]. unfold taken. cbn [filter i_address i_contract i_amount].
      assert (Q : forall a b c : bool, (if a then sum (map i_amount (if b then [mk_in 11 0 70] else [])) else 0) + (if c then 30 else 0) < 2 ^ 128) by (intros [] [] []; reflexivity). apply Q.
  - cbn [known existsb filter t_sender fst snd]. cbv zeta. split; [|vm_compute; reflexivity]. intros (a, c) HO. cbn [fst] in HO. apply N.eqb_eq in HO. subst a.
    unfold committed. cbn [map]. rewrite sum_cons. unfold commits. cbn [s_tx t_inputs t_sender s_fee fst]. unfold taken. cbn [filter i_address i_contract i_amount fst snd].
    destruct (N.eqb_spec 0 c) as [<-|HN]; [vm_compute; discriminate|]. unfold key_eqb, bal, at0. cbn [get fst snd]. unfold key_eqb. cbn [fst snd]. rewrite !N.eqb_refl. cbn [andb]. destruct (N.eqb_spec 0 c); [contradiction|]. cbn. lia.
Qed.
Print Assumptions C112_total_refuted.
