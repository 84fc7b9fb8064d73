(** C47, C48, C64, C65: the contracts that keep something for somebody *)
Require Import List Arith NArith Bool Lia.
From Verif Require Import BytesLib EngineModel EngineUpper CtrModel CtrSpec CtrProofs.
Import ListNotations.
Open Scope N_scope.

(** ** Induction over histories *)
Lemma history_ind' {S M} (exec : M -> act S unit) (P : S * (addr -> N) -> N -> list (entry M) -> Prop) :
  (forall x h, P x h []) ->
  (forall x h ev p m y l h', happens exec x ev p m y -> match ev with Call e _ => h' = e_height e | Receive _ _ => h' = h end -> h <= h' -> P y h' l -> P x h ((ev, p, m) :: l)) ->
  forall x h l z k, history exec x h l z k -> P x h l.
Proof. intros H0 H1. induction 1; eauto. Qed.
Lemma history_app {S M} (exec : M -> act S unit) x h l1 l2 z k : history exec x h (l1 ++ l2) z k ->
  exists y i, history exec x h l1 y i /\ history exec y i l2 z k.
Proof.
  revert x h. induction l1 as [|((ev, p), m) l1 IH]; intros x h H; [exists x, h; split; [constructor|exact H]|].
  inversion H; subst. edestruct IH as (y' & i & H1 & H2); [eassumption|]. exists y', i. split; auto. econstructor; eauto.
Qed.

(** ** For all contracts: what a contract holds changes by what it gets and pays, so that it never pays more than it has. *)
Lemma total_rev cur l : total_paid cur (rev l) = paid cur l.
Proof.
  assert (APP : forall a b, total_paid cur (a ++ b) = total_paid cur a + total_paid cur b) by (induction a as [|p a IH]; intros b; cbn [app total_paid fold_right]; auto; fold (total_paid cur (a ++ b)); rewrite IH; unfold total_paid; cbn [fold_right]; lia).
  induction l as [|p l IH]; auto. cbn [rev]. rewrite APP, IH. unfold total_paid, paid. cbn [fold_right]. lia.
Qed.
Lemma balance_step {S M} (exec : M -> act S unit) : (forall m, keeps (exec m)) -> forall x ev p m y, happens exec x ev p m y ->
  forall cur, snd y cur + total_paid cur p = snd x cur + came_in cur ev.
Proof.
  intros K x ev p m y H cur. inversion H as [s bal e me c E|s bal cu n]; subst; cbn [snd came_in].
  - rewrite total_rev, (K me _ _ _ _ E cur). unfold begin. cbn [c_bal c_sent paid fold_right]. destruct (e_deposit e) as [(x, n)|]; [unfold credit; destruct (addr_eqb cur x); lia|lia].
  - unfold credit. cbn. destruct (addr_eqb cur cu); lia.
Qed.
Theorem C48_balances : 
  (forall x ev p m y, happens TimeLock.exec x ev p m y -> forall cur, snd y cur + total_paid cur p = snd x cur + came_in cur ev) /\
  (forall x ev p m y, happens Escrow.exec x ev p m y -> forall cur, snd y cur + total_paid cur p = snd x cur + came_in cur ev) /\
  (forall x ev p m y, happens Relay.exec x ev p m y -> forall cur, snd y cur + total_paid cur p = snd x cur + came_in cur ev) /\
  (forall x ev p m y, happens Transfer.exec x ev p m y -> forall cur, snd y cur + total_paid cur p = snd x cur + came_in cur ev) /\
  (forall x ev p m y, happens Wallet.exec x ev p m y -> forall cur, snd y cur + total_paid cur p = snd x cur + came_in cur ev).
Proof.
  split; [|split; [|split; [|split]]]; intros x ev p m y H; eapply balance_step; eauto; intros me; clear.
  - unfold TimeLock.exec, TimeLock.check_owner, TimeLock.is_locked. keeps_tac.
  - unfold Escrow.exec. keeps_tac.
  - unfold Relay.exec. keeps_tac.
  - unfold Transfer.exec. keeps_tac.
  - unfold Wallet.exec, Wallet.check_owner. keeps_tac.
Qed.
Print Assumptions C48_balances.

(** ** C48, time_lock: whatever is called: before the unlock height that was set at some time, nothing is ever paid; and all is paid on behalf of the owner. *)
Theorem C48_time_lock : forall x h l y k, history TimeLock.exec x h l y k ->
  TimeLock.owner (fst y) = TimeLock.owner (fst x) /\
  TimeLock.unlock_height (fst x) <= TimeLock.unlock_height (fst y) /\
  forall ev p m, In (ev, p, m) l -> m = [] /\
    (p <> [] -> exists e c, ev = Call e c /\ e_user e = Some (TimeLock.owner (fst x)) /\ TimeLock.unlock_height (fst x) <= e_height e).
Proof.
  intros x h l y k H. induction H as [x h|x h ev p m y l z h' k HP _ _ _ IH]; [split; [auto|]; split; [lia|]; intros ? ? ? []|].
  assert (Q : TimeLock.owner (fst y) = TimeLock.owner (fst x) /\ TimeLock.unlock_height (fst x) <= TimeLock.unlock_height (fst y) /\ m = [] /\
    (p <> [] -> exists e c, ev = Call e c /\ e_user e = Some (TimeLock.owner (fst x)) /\ TimeLock.unlock_height (fst x) <= e_height e)).
  { inversion HP as [s bal e me c E|s bal cu n]; subst; cbn [fst snd]; [|split; [auto|]; split; [lia|]; split; [auto|]; congruence].
    destruct me as [|a n cu|u]; cbn [TimeLock.exec] in E.
    - steps E. cbn. split; [auto|]; split; [lia|]; split; [auto|]; congruence.
    - unfold TimeLock.check_owner, TimeLock.is_locked in E. step E. steps H. step E. steps H. step E. steps H. cbn [begin c_vars] in *. apply negb_true_iff, N.ltb_ge in E0.
      apply send_inv in E as [(_ & ->)|(_ & _ & ->)]; cbn; (split; [auto|]; split; [lia|]; split; [auto|]); [congruence|]. intros _. eauto.
    - unfold TimeLock.check_owner in E. step E. steps H. step E. simp H. step E. simp H. cbn [begin c_vars] in *. simp E. cbn. apply N.leb_le in E0.
      split; [auto|]; split; [auto|]; split; [auto|]; congruence. }
  destruct Q as (Q1 & Q2 & Q3 & Q4). destruct IH as (I1 & I2 & I3). split; [congruence|]. split; [lia|]. intros ev' p' m' [E|I]; [injection E as <- <- <-; auto|].
  destruct (I3 _ _ _ I) as (-> & I4). split; auto. intros NP. destruct (I4 NP) as (e & c & -> & U & L). exists e, c. split; auto. split; [congruence|lia].
Qed.
Print Assumptions C48_time_lock.
(** From then on the owner gets what the contract holds. *)
Theorem C48_time_lock_opens : forall v bal e a n cur, e_user e = Some (TimeLock.owner v) -> TimeLock.unlock_height v <= e_height e -> 0 < n < 2 ^ 128 -> n <= bal cur -> e_deposit e = None ->
  exists y, happens TimeLock.exec (v, bal) (Call e (TimeLock.Withdraw a n cur)) [mk_payment a cur n] [] y.
Proof.
  intros v bal e a n cur U L B1 B2 D.
  assert (E : exists c, TimeLock.exec (TimeLock.Withdraw a n cur) e (begin e v bal) = Some (tt, c) /\ c_sent c = [mk_payment a cur n] /\ c_minted c = []).
  { cbn [TimeLock.exec]. unfold TimeLock.check_owner, TimeLock.is_locked, bind, get, height, ret, assert. cbn [begin c_vars]. unfold begin. rewrite check_user_ok by exact U. cbn [c_vars].
    destruct (N.ltb_spec (e_height e) (TimeLock.unlock_height v)); [lia|]. cbn [negb]. rewrite D, send_ok by auto. eexists. split; [reflexivity|]. auto. }
  destruct E as (c & E & S1 & M1). exists (c_vars c, c_bal c). pose proof (happens_call TimeLock.exec v bal e _ c E) as HP. now rewrite S1, M1 in HP.
Qed.
Print Assumptions C48_time_lock_opens.

(** ** C48, escrow: all goes to the source or to the target, and only when the agent calls. *)
Theorem C48_escrow : forall x h l y k, history Escrow.exec x h l y k ->
  fst y = fst x /\
  forall ev p m, In (ev, p, m) l -> m = [] /\ (all_to (Escrow.source (fst x)) p \/ all_to (Escrow.target (fst x)) p) /\ (p <> [] -> called_by ev (Escrow.agent (fst x))).
Proof.
  intros x h l y k H. induction H as [x h|x h ev p m y l z h' k HP _ _ _ IH]; [split; [auto|]; intros ? ? ? []|].
  assert (Q : fst y = fst x /\ m = [] /\ (all_to (Escrow.source (fst x)) p \/ all_to (Escrow.target (fst x)) p) /\ (p <> [] -> called_by ev (Escrow.agent (fst x)))).
  { inversion HP as [s bal e me c E|s bal cu n]; subst; cbn [fst snd]; [|split; [auto|]; split; [auto|]; split; [left; constructor|congruence]].
    destruct me as [|cu|cu]; cbn [Escrow.exec] in E.
    - steps E. cbn. split; [auto|]; split; [auto|]; split; [left; constructor|congruence].
    - step E. simp H. step E. simp H. step E. simp H. cbn [begin c_vars] in *. apply send_inv in E as [(_ & ->)|(_ & _ & ->)]; cbn; (split; [auto|]; split; [auto|]).
      + split; [left; constructor|congruence]. + split; [right; now constructor|]. intros _. exists e, (Escrow.Unlock cu). auto.
    - step E. simp H. step E. simp H. step E. simp H. cbn [begin c_vars] in *. apply send_inv in E as [(_ & ->)|(_ & _ & ->)]; cbn; (split; [auto|]; split; [auto|]).
      + split; [left; constructor|congruence]. + split; [left; now constructor|]. intros _. exists e, (Escrow.Cancel cu). auto. }
  destruct Q as (Q1 & Q2). rewrite Q1 in IH. destruct IH as (I1 & I2). split; auto. intros ev' p' m' [E|I]; [injection E as <- <- <-; exact Q2|eauto].
Qed.
Print Assumptions C48_escrow.

(** ** C48, transfer: the target takes for itself, the source takes back for itself, nobody else gets anything. *)
Theorem C48_transfer : forall x h l y k, history Transfer.exec x h l y k ->
  fst y = fst x /\
  forall ev p m, In (ev, p, m) l -> m = [] /\
    (p <> [] -> exists a, (a = Transfer.source (fst x) \/ a = Transfer.target (fst x)) /\ all_to a p /\ called_by ev a).
Proof.
  intros x h l y k H. induction H as [x h|x h ev p m y l z h' k HP _ _ _ IH]; [split; [auto|]; intros ? ? ? []|].
  assert (Q : fst y = fst x /\ m = [] /\ (p <> [] -> exists a, (a = Transfer.source (fst x) \/ a = Transfer.target (fst x)) /\ all_to a p /\ called_by ev a)).
  { inversion HP as [s bal e me c E|s bal cu n]; subst; cbn [fst snd]; [|split; [auto|]; split; [auto|]; congruence].
    destruct me as [cu|cu]; cbn [Transfer.exec] in E; step E; simp H; step E; simp H; step E; simp H; cbn [begin c_vars] in *;
      apply send_inv in E as [(_ & ->)|(_ & _ & ->)]; cbn; (split; [auto|]; split; [auto|]); try congruence; intros _; eexists; (split; [|split; [constructor; [reflexivity|constructor]|]]).
    - now right. - exists e, (Transfer.Receive cu). auto. - now left. - exists e, (Transfer.Cancel cu). auto. }
  destruct Q as (Q1 & Q2). rewrite Q1 in IH. destruct IH as (I1 & I2). split; auto. intros ev' p' m' [E|I]; [injection E as <- <- <-; exact Q2|eauto].
Qed.
Print Assumptions C48_transfer.

(** ** C48, relay: at every step only the owner of the moment gets anything; the owner changes only if the owner has offered this and the new one accepts. *)
Theorem C48_relay_step : forall x ev p m y, happens Relay.exec x ev p m y ->
  m = [] /\ all_to (Relay.owner (fst x)) p /\ (p <> [] -> called_by ev (Relay.owner (fst x))) /\
  (Relay.owner (fst y) <> Relay.owner (fst x) -> Relay.transfer_target (fst x) = Some (Relay.owner (fst y)) /\ called_by ev (Relay.owner (fst y))) /\
  (Relay.transfer_target (fst y) <> None -> Relay.transfer_target (fst y) <> Relay.transfer_target (fst x) -> called_by ev (Relay.owner (fst x))).
Proof.
  intros x ev p m y HP. inversion HP as [s bal e me c E|s bal cu n]; subst; cbn [fst snd]; [|split; [auto|]; split; [constructor|]; split; [congruence|]; split; congruence].
  destruct me as [cu|a|]; cbn [Relay.exec] in E; step E; simp H; cbn [begin c_vars] in *.
  - step E. simp H. step E. simp H. apply send_inv in E as [(_ & ->)|(_ & _ & ->)]; cbn; (split; [auto|]).
    + split; [constructor|]. split; [congruence|]. split; congruence.
    + split; [now constructor|]. split; [intros _; exists e, (Relay.ClaimAll cu); auto|]. split; congruence.
  - step E. simp H. simp E. cbn. split; [auto|]. split; [constructor|]. split; [congruence|]. split; [congruence|]. intros _ _. exists e, (Relay.Transfer a). auto.
  - destruct (Relay.transfer_target s) as [t|] eqn:T; [|discriminate]. step E. simp H. simp E. cbn. split; [auto|]. split; [constructor|]. split; [congruence|]. split; [|congruence].
    intros _. split; auto. exists e, Relay.Complete. auto.
Qed.
Print Assumptions C48_relay_step.

(** ** C48, token: minted and recovered only by the owner of the moment, who alone can hand this over. *)
Theorem C48_token_step : forall x ev p m y, happens Token.exec x ev p m y ->
  all_to (Token.owner (fst x)) p /\
  (p <> [] \/ m <> [] \/ Token.owner (fst y) <> Token.owner (fst x) -> called_by ev (Token.owner (fst x))) /\
  (m <> [] -> exists e a n, ev = Call e (Token.MintTo a n) /\ m = [(a, n)]).
Proof.
  intros x ev p m y HP. inversion HP as [s bal e me c E|s bal cu n]; subst; cbn [fst snd]; [|split; [constructor|]; split; [intros [H|[H|H]]; congruence|congruence]].
  destruct me as [a n|a|n cu]; cbn [Token.exec] in E; unfold Token.check_owner in E; step E; steps H; cbn [begin c_vars] in *.
  - apply mint_inv in E as [(_ & ->)|(_ & ->)]; cbn; (split; [constructor|]).
    + split; [intros [H|[H|H]]; congruence|congruence].
    + split; [intros _; exists e, (Token.MintTo a n); auto|]. intros _. exists e, a, n. auto.
  - simp E. cbn. split; [constructor|]. split; [intros _; exists e, (Token.Transfer a); auto|congruence].
  - step E. simp H. cbn [begin c_vars] in *. apply send_inv in E as [(_ & ->)|(_ & _ & ->)]; cbn.
    + split; [constructor|]. split; [intros [H|[H|H]]; congruence|congruence].
    + split; [now constructor|]. split; [intros _; exists e, (Token.Recover n cu); auto|congruence].
Qed.
Print Assumptions C48_token_step.

(** ** C48, smart_wallet: the owner is fixed; what is paid is paid for the owner or is the payment of a plan, to its target; only the owner makes and cancels plans. *)
Theorem C48_wallet_step : forall x ev p m y, happens Wallet.exec x ev p m y ->
  Wallet.owner (fst y) = Wallet.owner (fst x) /\ m = [] /\
  (called_by ev (Wallet.owner (fst x)) \/
   (p = [] /\ Wallet.plans (fst y) = Wallet.plans (fst x)) \/
   exists e name q, ev = Call e (Wallet.PlanPayment name) /\ Wallet.plans (fst x) name = Some q /\ Wallet.p_active q = true /\ Wallet.p_next q <= e_height e /\
     (p = [] \/ p = [mk_payment (Wallet.p_target q) (Wallet.p_currency q) (Wallet.p_amount q)]) /\
     forall other, other <> name -> Wallet.plans (fst y) other = Wallet.plans (fst x) other).
Proof.
  intros x ev p m y HP. inversion HP as [s bal e me c E|s bal cu n]; subst; cbn [fst snd]; [|split; [auto|]; split; [auto|]; right; left; auto].
  destruct me as [a n cu|name n cu t i st|name|name]; cbn [Wallet.exec] in E; unfold Wallet.check_owner in E; step E.
  - steps H. cbn [begin c_vars] in *. apply send_inv in E as [(_ & ->)|(_ & _ & ->)]; cbn; (split; [auto|]; split; [auto|]); left; exists e, (Wallet.Transfer a n cu); auto.
  - steps H. cbn [begin c_vars] in *. step E. simp H. step E. simp H. step E. simp H. simp E. cbn. split; [auto|]. split; [auto|]. left. exists e, (Wallet.AddPlan name n cu t i st). auto.
  - steps H. cbn [begin c_vars] in *. step E. simp H. cbn [begin c_vars] in *. destruct (Wallet.plans s name) as [q|]; [|discriminate]. simp E. cbn. split; [auto|]. split; [auto|].
    left. exists e, (Wallet.CancelPlan name). auto.
  - simp H. cbn [begin c_vars] in *. destruct (Wallet.plans s name) as [q|] eqn:P; [|discriminate]. step E. simp H. step E. simp H. step E. simp H. step E.
    apply uadd_same in H; subst. step E. simp H. apply N.leb_le in E1.
    apply send_inv in E as [(_ & ->)|(_ & _ & ->)]; cbn; (split; [auto|]; split; [auto|]); right; right; exists e, name, q; (split; [auto|]; split; [auto|]; split; [auto|]; split; [auto|]).
    all: split; [auto|]; intros o NE; unfold Wallet.put; destruct (addr_eqb_spec o name); congruence.
Qed.
Print Assumptions C48_wallet_step.
(** A plan pays at most once per interval: payments number 0, 1, ..., j need the heights start, start + interval, ..., start + j * interval, as long as the owner
    does not cancel it. *)
Definition is_payment (name : bytes) (x : entry Wallet.method) : bool :=
  match ev_of x with Call _ (Wallet.PlanPayment n) => addr_eqb n name | _ => false end.
Definition cancelled (name : bytes) (x : entry Wallet.method) : bool :=
  match ev_of x with Call _ (Wallet.CancelPlan n) => addr_eqb n name | _ => false end.
Theorem C48_wallet_plan : forall name x h l y k q, history Wallet.exec x h l y k -> Wallet.plans (fst x) name = Some q -> Wallet.p_active q = true ->
  Wallet.p_next q < 2 ^ 256 -> Wallet.p_interval q < 2 ^ 256 -> existsb (cancelled name) l = false ->
  let n := N.of_nat (length (filter (is_payment name) l)) in
  (0 < n -> Wallet.p_next q + (n - 1) * Wallet.p_interval q <= k) /\
  exists q', Wallet.plans (fst y) name = Some q' /\ Wallet.p_next q' = Wallet.p_next q + n * Wallet.p_interval q /\
    Wallet.p_target q' = Wallet.p_target q /\ Wallet.p_amount q' = Wallet.p_amount q /\ Wallet.p_currency q' = Wallet.p_currency q /\ Wallet.p_interval q' = Wallet.p_interval q /\ Wallet.p_active q' = true.
Proof.
  intros name x h l y k q H. revert q. induction H as [x h|x h ev p m y l z h' k HP HH LE H' IH]; intros q P A B1 B2 NC; cbv zeta.
  - cbn [filter length N.of_nat]. split; [lia|]. exists q. split; auto. split; [lia|]. auto 6.
  - assert (MON : h' <= k) by (clear - H'; induction H' as [|? ? ? ? ? ? ? ? ? ? ? ? ? ? IH']; lia).
    cbn [existsb] in NC. apply orb_false_iff in NC as (NC1 & NC2). cbn [filter].
    destruct (is_payment name (ev, p, m)) eqn:IP.
    + unfold is_payment, ev_of in IP. cbn [fst] in IP. destruct ev as [e [| | |nm]|]; try discriminate. destruct (addr_eqb_spec nm name) as [->|]; [|discriminate].
      inversion HP as [s bal e' me c E|]; subst. cbn [fst] in P. cbn [Wallet.exec] in E. step E. simp H. cbn [begin c_vars] in *. rewrite P in E. step E. simp H. step E. simp H. step E. simp H.
      apply N.leb_le in E1. step E. apply uadd_inv in H as (-> & BN & ->); auto. step E. simp H.
      assert (PY : Wallet.plans (c_vars c) name = Some (Wallet.mk_plan (Wallet.p_amount q) (Wallet.p_currency q) (Wallet.p_target q) (Wallet.p_interval q) (Wallet.p_next q + Wallet.p_interval q) true)).
      { apply send_inv in E as [(_ & ->)|(_ & _ & ->)]; cbn; unfold Wallet.put; now rewrite addr_eqb_refl. }
      destruct (IH _ PY eq_refl BN B2 NC2) as (I1 & q' & I2 & I3 & I4 & I5 & I6 & I7 & I8). cbn [Wallet.p_next Wallet.p_interval Wallet.p_target Wallet.p_amount Wallet.p_currency] in *. cbn [length].
      set (n := length (filter (is_payment name) l)) in *. rewrite Nnat.Nat2N.inj_succ. split.
      * intros _. destruct (N.eq_dec (N.of_nat n) 0) as [Z|NZ]; [rewrite Z; lia|]. specialize (I1 ltac:(lia)). nia.
      * exists q'. split; auto. split; [rewrite I3; nia|]. auto.
    + assert (PY : Wallet.plans (fst y) name = Some q).
      { inversion HP as [s bal e' me c E|]; subst; cbn [fst] in *; [|exact P]. unfold is_payment, cancelled, ev_of in IP, NC1. cbn [fst] in IP, NC1.
        destruct me as [a n cu|nm n cu t i st|nm|nm]; cbn [Wallet.exec] in E; unfold Wallet.check_owner in E; step E.
        - steps H. cbn [begin c_vars] in *. apply send_inv in E as [(_ & ->)|(_ & _ & ->)]; exact P.
        - steps H. cbn [begin c_vars] in *. step E. simp H. step E. simp H. step E. simp H. simp E. cbn [begin c_vars Wallet.plans] in *. unfold Wallet.put. destruct (addr_eqb_spec name nm) as [<-|]; auto.
          rewrite P, A in E0. discriminate.
        - steps H. cbn [begin c_vars] in *. step E. simp H. cbn [begin c_vars] in *. destruct (Wallet.plans s nm) as [q0|]; [|discriminate]. simp E. cbn [c_vars Wallet.plans]. unfold Wallet.put.
          destruct (addr_eqb_spec name nm) as [<-|]; auto. rewrite addr_eqb_refl in NC1. discriminate.
        - simp H. cbn [begin c_vars] in *. destruct (Wallet.plans s nm) as [q0|]; [|discriminate]. step E. simp H. step E. simp H. step E. simp H. step E.
          apply uadd_same in H; subst. step E. simp H.
          apply send_inv in E as [(_ & ->)|(_ & _ & ->)]; cbn [begin c_vars Wallet.plans]; unfold Wallet.put; (destruct (addr_eqb_spec name nm) as [<-|]; [rewrite addr_eqb_refl in IP; discriminate|exact P]). }
      exact (IH q PY A B1 B2 NC2).
Qed.
Print Assumptions C48_wallet_plan.

(** Once the owner has cancelled a plan, it pays nothing any more, unless the owner makes it again. *)
Definition added (name : bytes) (x : entry Wallet.method) : bool :=
  match ev_of x with Call _ (Wallet.AddPlan n _ _ _ _ _) => addr_eqb n name | _ => false end.
Theorem C48_wallet_cancel : forall name e x p m y h l z k, happens Wallet.exec x (Call e (Wallet.CancelPlan name)) p m y -> history Wallet.exec y h l z k ->
  existsb (added name) l = false -> p = [] /\ existsb (is_payment name) l = false.
Proof.
  intros name e x p m y h l z k HP HL NA.
  assert (Q : p = [] /\ exists q, Wallet.plans (fst y) name = Some q /\ Wallet.p_active q = false).
  { inversion HP as [s bal e' me c E|]; subst. cbn [Wallet.exec fst] in *. unfold Wallet.check_owner in E. step E. steps H. cbn [begin c_vars] in *. step E. simp H. cbn [begin c_vars] in *.
    destruct (Wallet.plans s name) as [q0|]; [|discriminate]. simp E. cbn. split; [auto|]. unfold Wallet.put. rewrite addr_eqb_refl. eauto. }
  destruct Q as (-> & q & P & A). split; [auto|]. clear HP. revert q P A NA.
  induction HL as [x' h|x' h ev p' m' y' l z h' k HP HH LE HL IH]; intros q P A NA; cbn [existsb] in *; [auto|].
  apply orb_false_iff in NA as (NA1 & NA2). assert (IP : is_payment name (ev, p', m') = false /\ exists q, Wallet.plans (fst y') name = Some q /\ Wallet.p_active q = false).
  { inversion HP as [s bal e' me c E|]; subst; cbn [fst] in *; [|split; [auto|eauto]]. unfold is_payment, added, ev_of in *. cbn [fst] in *.
    destruct me as [a n cu|nm n cu t i st|nm|nm]; cbn [Wallet.exec] in E; unfold Wallet.check_owner in E; step E.
    - split; [auto|]. steps H. cbn [begin c_vars] in *. apply send_inv in E as [(_ & ->)|(_ & _ & ->)]; eauto.
    - split; [auto|]. steps H. cbn [begin c_vars] in *. step E. simp H. step E. simp H. step E. simp H. simp E. cbn [begin c_vars Wallet.plans] in *. unfold Wallet.put.
      destruct (addr_eqb_spec name nm) as [<-|]; [|eauto]. rewrite addr_eqb_refl in NA1. discriminate.
    - split; [auto|]. steps H. cbn [begin c_vars] in *. step E. simp H. cbn [begin c_vars] in *. destruct (Wallet.plans s nm) as [q0|]; [|discriminate]. simp E. cbn [c_vars Wallet.plans]. unfold Wallet.put.
      destruct (addr_eqb_spec name nm) as [<-|]; eauto.
    - simp H. cbn [begin c_vars] in *. destruct (Wallet.plans s nm) as [q0|] eqn:P0; [|discriminate]. step E. simp H.
      destruct (addr_eqb_spec nm name) as [->|NE]; [congruence|]. split; [auto|]. step E. simp H. step E. simp H. step E.
      apply uadd_same in H; subst. step E. simp H.
      apply send_inv in E as [(_ & ->)|(_ & _ & ->)]; cbn [begin c_vars Wallet.plans]; unfold Wallet.put; (destruct (addr_eqb_spec name nm); [congruence|eauto]). }
  destruct IP as (IP & q2 & P2 & A2). rewrite IP. cbn [orb]. eauto.
Qed.
Print Assumptions C48_wallet_cancel.

(** ** C47.  A plot NFT was locked to [t].  Whatever is called, by the owner or anybody else: at a height [g] such that every unlock request is less than 256
    blocks old, the rewards go to [t], and all that was ever paid out was paid to [t]. *)
Definition in_history {M} (l : list (entry M)) (ev : event M) : Prop := exists p m, In (ev, p, m) l.
Lemma height_mono {S M} (exec : M -> act S unit) x h l z k : history exec x h l z k -> h <= k.
Proof. induction 1; lia. Qed.
Lemma plot_step t g w x ev p m y h' h : happens PlotNft.exec x ev p m y -> match ev with Call e _ => h' = e_height e | Receive _ _ => h' = h end -> h' <= g -> g < 2 ^ 64 ->
  PlotNft.target (fst x) = Some t -> PlotNft.unlock_height (fst x) = w -> match w with Some u => g < u | None => True end ->
  (forall e, ev = Call e PlotNft.Unlock -> g < e_height e + 256) ->
  PlotNft.target (fst y) = Some t /\ match PlotNft.unlock_height (fst y) with Some u => g < u | None => True end /\ all_to t p /\ (p <> [] -> called_by ev t) /\ m = [].
Proof.
  intros HP HH LE GB T UH W UN. inversion HP as [s bal e me c E|s bal cu n]; subst; cbn [fst snd] in *; [|split; [auto|]; split; [auto|]; split; [constructor|]; split; [congruence|auto]].
  assert (LOCKED : (match PlotNft.unlock_height s with None => true | Some u => e_height e <? u end) = true) by (destruct (PlotNft.unlock_height s) as [u|]; auto; apply N.ltb_lt; lia).
  destruct me as [t'| |cu|a|]; cbn [PlotNft.exec] in E; unfold PlotNft.check_owner, PlotNft.is_locked in E; step E.
  - steps H. step E. steps H. cbn [begin c_vars] in *. rewrite LOCKED in E. step E. simp H. discriminate.
  - steps H. step E. simp H. cbn [begin c_vars] in *. destruct (PlotNft.unlock_height s) as [u|] eqn:UH.
    + simp E. cbn. rewrite UH. split; [auto|]. split; [auto|]. split; [constructor|]. split; [congruence|auto].
    + step E. simp H. step E. apply uadd_inv in H as (-> & _ & ->).
      2: { apply N.lt_trans with (2 ^ 64); [lia|reflexivity]. } 2: { reflexivity. }
      simp E. cbn. split; [auto|]. specialize (UN e eq_refl). unfold PlotNft.UNLOCK_DELAY. split; [exact UN|]. split; [constructor|]. split; [congruence|auto].
  - steps H. cbn [begin c_vars] in *. rewrite LOCKED in E. step E. simp H. step E. simp H. step E. simp H. cbn [begin c_vars] in *. rewrite T in E0. step E. simp H.
    destruct (e_user e) as [a|] eqn:U; [|discriminate]. destruct (addr_eqb_spec a t) as [->|]; [|discriminate].
    apply send_inv in E as [(_ & ->)|(_ & _ & ->)]; cbn; (split; [auto|]; split; [auto|]).
    + split; [constructor|]. split; [congruence|auto]. + split; [now constructor|]. split; [|auto]. intros _. exists e, (PlotNft.ClaimAll cu). auto.
  - steps H. step E. simp H. cbn [begin c_vars] in *. simp E. cbn. split; [auto|]. split; [auto|]. split; [constructor|]. split; [congruence|auto].
  - simp H. step E. simp H. steps E. cbn. split; [auto|]. split; [auto|]. split; [constructor|]. split; [congruence|auto].
Qed.
Theorem C47_locked : forall t g x h l y k, history PlotNft.exec x h l y k ->
  PlotNft.unlock_height (fst x) = None -> PlotNft.target (fst x) = Some t ->
  k <= g -> g < 2 ^ 64 -> (forall e, in_history l (Call e PlotNft.Unlock) -> g < e_height e + 256) ->
  (forall e bal farmer, e_height e = g -> exists c, PlotNft.mmx_reward_target farmer e (begin e (fst y) bal) = Some (Some t, c)) /\
  (forall ev p m, In (ev, p, m) l -> m = [] /\ all_to t p /\ (p <> [] -> called_by ev t)).
Proof.
  intros t g x h l y k H UH T LE GB UN.
  assert (Q : PlotNft.target (fst y) = Some t /\ match PlotNft.unlock_height (fst y) with Some u => g < u | None => True end /\
    (forall ev p m, In (ev, p, m) l -> m = [] /\ all_to t p /\ (p <> [] -> called_by ev t))).
  { assert (W : match PlotNft.unlock_height (fst x) with Some u => g < u | None => True end) by now rewrite UH. clear UH.
    induction H as [x h|x h ev p m y l z h' k HP HH L H' IH]; [split; [auto|]; split; [auto|]; intros ? ? ? []|].
    pose proof (height_mono _ _ _ _ _ _ H') as HM.
    edestruct (plot_step t g) as (T' & W' & A1 & A2 & A3); [exact HP|exact HH|lia|exact GB|exact T|reflexivity|exact W| |].
    { intros e ->. apply UN. exists p, m. now left. }
    destruct (IH T' LE) as (I1 & I2 & I3); auto.
    { intros e (p' & m' & I). apply UN. exists p', m'. now right. }
    split; auto. split; auto. intros ev' p' m' [E|I]; [injection E as <- <- <-; auto|eauto]. }
  destruct Q as (Q1 & Q2 & Q3). split; auto. intros e bal farmer EH. unfold PlotNft.mmx_reward_target, PlotNft.is_locked, bind, get, height, ret. cbn [begin c_vars].
  replace (match PlotNft.unlock_height (fst y) with Some u => e_height e <? u | None => true end) with true; [rewrite Q1; eauto|].
  destruct (PlotNft.unlock_height (fst y)) as [u|]; auto. symmetry. apply N.ltb_lt. lia.
Qed.
Print Assumptions C47_locked.
(** Only the owner changes anything; what is paid goes to the caller, who is the owner, or the target while it is locked. *)
Theorem C47_step : forall x ev p m y, happens PlotNft.exec x ev p m y ->
  m = [] /\ (fst y <> fst x -> called_by ev (PlotNft.owner (fst x))) /\
  (p <> [] -> exists a, called_by ev a /\ all_to a p /\ (a = PlotNft.owner (fst x) \/ PlotNft.target (fst x) = Some a)).
Proof.
  intros x ev p m y HP. inversion HP as [s bal e me c E|s bal cu n]; subst; cbn [fst snd] in *; [|split; [auto|]; split; congruence].
  destruct me as [t'| |cu|a|]; cbn [PlotNft.exec] in E; unfold PlotNft.check_owner, PlotNft.is_locked in E; step E.
  - steps H. step E. steps H. step E. simp H. step E. simp H. simp E. cbn. split; [auto|]. split; [|congruence]. intros _. exists e, (PlotNft.Lock t'). auto.
  - steps H. step E. simp H. cbn [begin c_vars] in *. destruct (PlotNft.unlock_height s) as [u|] eqn:UH.
    + simp E. cbn. split; [auto|]. split; congruence.
    + step E. simp H. step E. apply uadd_same in H; subst. simp E. cbn. split; [auto|]. split; [|congruence]. intros _. exists e, PlotNft.Unlock. auto.
  - steps H. step E. simp H. step E. simp H. step E. cbn [begin c_vars] in *.
    match type of H with (if ?b then _ else _) _ _ = _ => destruct b end.
    + simp H. step E. simp H. destruct (e_user e) as [a|] eqn:U.
      * destruct (PlotNft.target s) as [t|] eqn:T; [|discriminate]. destruct (addr_eqb_spec a t) as [->|]; [|discriminate].
        apply send_inv in E as [(_ & ->)|(_ & _ & ->)]; cbn; (split; [auto|]; split; [congruence|]); [congruence|]. intros _. exists t. split; [exists e, (PlotNft.ClaimAll cu); auto|]. split; [now constructor|auto].
      * match type of E with (if ?b then _ else _) _ _ = _ => destruct b end; [|discriminate]. simp E. cbn. split; [auto|]. split; congruence.
    + steps H. step E. simp H. cbn [begin c_vars] in *. rewrite U in E.
      apply send_inv in E as [(_ & ->)|(_ & _ & ->)]; cbn; (split; [auto|]; split; [congruence|]); [congruence|]. intros _. exists (PlotNft.owner s). split; [exists e, (PlotNft.ClaimAll cu); auto|]. split; [now constructor|auto].
  - steps H. step E. simp H. simp E. cbn. split; [auto|]. split; [|congruence]. intros _. exists e, (PlotNft.Transfer a). auto.
  - simp H. step E. simp H. steps E. cbn. split; [auto|]. split; congruence.
Qed.
Print Assumptions C47_step.
(** The owner can always ask for it, and has full control 256 blocks later. *)
Theorem C47_unlock : forall v bal e, e_user e = Some (PlotNft.owner v) -> PlotNft.unlock_height v = None -> e_height e < 2 ^ 64 ->
  exists y, happens PlotNft.exec (v, bal) (Call e PlotNft.Unlock) [] [] y /\
  forall e' bal' farmer, e_height e + 256 <= e_height e' -> exists c, PlotNft.mmx_reward_target farmer e' (begin e' (fst y) bal') = Some (Some (match farmer with Some f => f | None => PlotNft.owner v end), c).
Proof.
  intros v bal e U UH HB.
  assert (E : PlotNft.exec PlotNft.Unlock e (begin e v bal) = Some (tt, mk_ctr (PlotNft.mk (PlotNft.owner v) (PlotNft.target v) (Some (e_height e + 256))) (c_bal (begin e v bal)) [] [])).
  { cbn [PlotNft.exec]. unfold PlotNft.check_owner, bind, get, height. cbn [begin c_vars]. unfold begin. rewrite check_user_ok by exact U. cbn [c_vars]. rewrite UH, uadd_ok; [reflexivity|].
    unfold PlotNft.UNLOCK_DELAY. apply N.lt_trans with (2 ^ 64 + 256); [lia|reflexivity]. }
  eexists. split; [exact (happens_call PlotNft.exec v bal e _ _ E)|]. intros e' bal' farmer L. cbn [fst c_vars]. unfold PlotNft.mmx_reward_target, PlotNft.is_locked, bind, get, height, ret. cbn [begin c_vars PlotNft.unlock_height PlotNft.owner].
  destruct (N.ltb_spec (e_height e') (e_height e + 256)); [lia|]. eexists. destruct farmer; reflexivity.
Qed.
Print Assumptions C47_unlock.

(** ** C64.  An NFT exists at most once, however often and by whom the contract is called, and is made by its creator ... *)
Definition units (l : list (addr * N)) : N := fold_right (fun x s => snd x + s) 0 l.
Theorem C64_nft_once : forall x h l y k, history Nft.exec x h l y k ->
  units (List.concat (map minted_by l)) <= 1 /\ (Nft.mint_height (fst x) <> None -> units (List.concat (map minted_by l)) = 0) /\
  forall ev p m, In (ev, p, m) l -> p = [] /\ (m <> [] -> called_by ev (Nft.creator (fst x))).
Proof.
  intros x h l y k H. induction H as [x h|x h ev p m y l z h' k HP _ _ _ IH]; [cbn; split; [lia|]; split; [auto|]; intros ? ? ? []|].
  assert (Q : p = [] /\ Nft.creator (fst y) = Nft.creator (fst x) /\ (Nft.mint_height (fst x) <> None -> Nft.mint_height (fst y) <> None) /\
    (m = [] \/ (called_by ev (Nft.creator (fst x)) /\ Nft.mint_height (fst x) = None /\ Nft.mint_height (fst y) <> None /\ units m = 1))).
  { inversion HP as [s bal e me c E|s bal cu n]; subst; cbn [fst snd] in *; [|auto]. destruct me as [a]. cbn [Nft.exec] in E. step E. simp H. step E. simp H. step E. simp H. step E. simp H. step E. simp H.
    cbn [begin c_vars] in *. destruct (Nft.mint_height s) eqn:MH; [discriminate|]. apply mint_inv in E as [(N & _)|(_ & ->)]; [discriminate|]. cbn. split; [auto|]. split; [auto|]. split; [congruence|].
    right. split; [exists e, (Nft.MintTo a); auto|]. split; [auto|]. split; [discriminate|reflexivity]. }
  destruct Q as (-> & QC & QM & Q). destruct IH as (I1 & I2 & I3). rewrite QC in I3. cbn [map List.concat minted_by snd].
  assert (APP : forall a b, units (a ++ b) = units a + units b) by (induction a as [|q a IHa]; intros b; auto; cbn [app units fold_right]; fold (units (a ++ b)); rewrite IHa; unfold units; cbn [fold_right]; lia).
  rewrite APP. unfold minted_by in *. cbn [snd]. destruct Q as [->|(CB & N1 & N2 & UM)].
  - cbn [units fold_right]. split; [lia|]. split; [intros N; rewrite I2 by auto; reflexivity|]. intros ev' p' m' [E|I]; [injection E as <- <- <-; split; auto; congruence|eauto].
  - rewrite UM, (I2 N2). split; [lia|]. split; [congruence|]. intros ev' p' m' [E|I]; [injection E as <- <- <-; auto|eauto].
Qed.
Print Assumptions C64_nft_once.
(** ... and a template gives each of its numbers to one contract only, with a signature of the creator. *)
Theorem C64_template : forall sha verify message x h l y k serial a, history (Template.exec sha verify message) x h l y k ->
  Template.nfts (fst y) serial = Some a ->
  Template.nfts (fst x) serial = Some a \/
  (Template.nfts (fst x) serial = None /\
   exists e key sg, in_history l (Call e (Template.Add serial key sg)) /\ e_user e = Some a /\ sha key = Template.creator (fst x) /\ verify (message (e_self e) serial) key sg = true).
Proof.
  intros sha verify message x h l y k serial a H N.
  assert (CR : Template.creator (fst y) = Template.creator (fst x) /\ (Template.nfts (fst x) serial = Some a \/ (Template.nfts (fst x) serial = None /\
    exists e key sg, in_history l (Call e (Template.Add serial key sg)) /\ e_user e = Some a /\ sha key = Template.creator (fst x) /\ verify (message (e_self e) serial) key sg = true))).
  { induction H as [x h|x h ev p m y l z h' k HP _ _ _ IH]; [auto|]. destruct (IH N) as (I1 & I2).
    assert (Q : Template.creator (fst y) = Template.creator (fst x) /\ (Template.nfts (fst y) serial = Template.nfts (fst x) serial \/
      (Template.nfts (fst x) serial = None /\ exists e key sg b, ev = Call e (Template.Add serial key sg) /\ Template.nfts (fst y) serial = Some b /\ e_user e = Some b /\ sha key = Template.creator (fst x) /\ verify (message (e_self e) serial) key sg = true))).
    { inversion HP as [s bal e me c E|s bal cu n]; subst; cbn [fst snd] in *; [|auto]. destruct me as [sr key sg]. cbn [Template.exec] in E. step E. simp H. destruct (e_user e) as [b|] eqn:U; [|discriminate].
      step E. simp H. step E. simp H. step E. simp H. step E. simp H. step E. unfold Template.self in H. injection H as <- <-. step E. simp H. simp E. cbn [begin c_vars Template.creator Template.nfts] in *.
      split; auto. destruct (N.eqb_spec serial sr) as [<-|]; [|auto]. right. destruct (Template.nfts s serial); [discriminate|]. split; auto. exists e, key, sg, b. split; auto. split; auto. split; auto. split; auto.
      destruct (addr_eqb_spec (sha key) (Template.creator s)); [auto|discriminate]. }
    destruct Q as (Q1 & Q2). split; [congruence|]. destruct Q2 as [Q2|(N1 & e & key & sg & b & -> & N2 & U & SH & V)].
    - rewrite <- Q2, <- Q1. destruct I2 as [I2|(I2 & e & key & sg & (p' & m' & I) & R)]; [auto|]. right. split; auto. exists e, key, sg. split; auto. exists p', m'. now right.
    - right. split; auto. destruct I2 as [I2|(I2 & _)]; [|congruence]. exists e, key, sg. split; [exists p, m; now left|]. split; [congruence|auto]. }
  now destruct CR.
Qed.
Print Assumptions C64_template.

(** ** C65.  A virtual plot pays only its owner; of the native currency nine tenths, the rest is burned; of anything else all. *)
Theorem C65_virtual_plot : forall x ev p m y, happens VirtualPlot.exec x ev p m y ->
  fst y = fst x /\ m = [] /\
  (p <> [] -> exists e amount cur, ev = Call e (VirtualPlot.Withdraw amount cur) /\ e_user e = Some (VirtualPlot.owner (fst x)) /\
    (amount < 2 ^ 128 ->
     let back := if addr_eqb cur native then amount * 90 / 100 else amount in
     p = filter (fun q => 0 <? pm_amount q) [mk_payment (VirtualPlot.owner (fst x)) cur back; mk_payment native cur (amount - back)])).
Proof.
  intros x ev p m y HP. inversion HP as [s bal e me c E|s bal cu n]; subst; cbn [fst snd] in *; [|split; [auto|]; split; [auto|congruence]].
  destruct me as [|n cu]; cbn [VirtualPlot.exec] in E; [steps E; cbn; split; [auto|]; split; [auto|congruence]|].
  step E. simp H. step E. simp H. step E. cbn [begin c_vars] in *.
  assert (C0 : c0 = begin e s bal).
  { destruct (addr_eqb cu native); [|steps H; reflexivity]. step H. apply umul_le in H0 as (_ & _ & ->). now apply udiv_inv in H as (_ & _ & ->). }
  subst c0. step E. step E.
  assert (V : c_vars c0 = s /\ c_minted c0 = [] ) by (apply send_inv in H0 as [(_ & ->)|(_ & _ & ->)]; auto).
  assert (C1 : c1 = c0) by (unfold usub in H1; destruct (_ <? _); [discriminate|]; now injection H1 as _ <-). subst c1.
  assert (V' : c_vars c = s /\ c_minted c = []) by (apply send_inv in E as [(_ & ->)|(_ & _ & ->)]; cbn; auto). destruct V' as (-> & ->). split; [auto|]. split; [auto|]. intros _. exists e, n, cu.
  split; auto. split; auto. intros B.
  assert (XR : x0 = if addr_eqb cu native then n * 90 / 100 else n).
  { destruct (addr_eqb cu native); [|unfold ret in H; congruence]. step H. apply umul_inv in H2 as (-> & ->); [now apply udiv_inv in H as (_ & -> & _)|].
    apply N.lt_trans with (2 ^ 128 * 90); [lia|reflexivity]. }
  rewrite <- XR. assert (XL : x0 <= n) by (rewrite XR; destruct (addr_eqb cu native); [apply N.div_le_upper_bound; lia|lia]).
  assert (BIG : 2 ^ 128 < 2 ^ 256) by reflexivity.
  apply usub_inv in H1 as (_ & -> & _); [|lia|lia]. clear BIG XR H B. cbn [filter pm_amount].
  apply send_inv in H0 as [(-> & ->)|(L0 & _ & ->)]; apply send_inv in E as [(Z & ->)|(L1 & _ & ->)]; cbn [c_sent begin rev app].
  - rewrite Z. reflexivity.
  - destruct (N.ltb_spec 0 0); [lia|]. destruct (N.ltb_spec 0 (n - 0)); [reflexivity|lia].
  - destruct (N.ltb_spec 0 x0); [|lia]. rewrite Z. reflexivity.
  - destruct (N.ltb_spec 0 x0); [|lia]. destruct (N.ltb_spec 0 (n - x0)); [reflexivity|lia].
Qed.
Print Assumptions C65_virtual_plot.

(** ** Examples.  Alice [A], Bob [B], Carol [C]; [coin] is a token *)
Definition A : addr := repeat 1 32. Definition B : addr := repeat 2 32. Definition C : addr := repeat 3 32. Definition coin : addr := repeat 7 32.
Definition by_ (a : addr) (h : N) : env := mk_env (Some a) h None (repeat 9 32) 1.
Definition no_money : addr -> N := fun _ => 0.
(** Money that is locked until height 100, then until 200; taken out at 200.  At 199 this is refused, and by anybody else. *)
Definition tl_events : list (event TimeLock.method) :=
  [Receive coin 50; Call (by_ A 10) (TimeLock.SetUnlockHeight 200); Call (by_ B 20) TimeLock.Deposit; Call (by_ A 200) (TimeLock.Withdraw B 20 coin)].
Example C48_time_lock_case : exists l y k, history TimeLock.exec (TimeLock.init A 100, no_money) 5 l y k /\
  map paid_by l = [[]; []; []; [mk_payment B coin 20]] /\ snd y coin = 30 /\ TimeLock.unlock_height (fst y) = 200 /\
  TimeLock.exec (TimeLock.Withdraw A 1 coin) (by_ A 199) (begin (by_ A 199) (fst y) (snd y)) = None /\
  TimeLock.exec (TimeLock.Withdraw B 1 coin) (by_ B 300) (begin (by_ B 300) (fst y) (snd y)) = None /\
  TimeLock.exec (TimeLock.SetUnlockHeight 199) (by_ A 300) (begin (by_ A 300) (fst y) (snd y)) = None.
Proof.
  destruct (replay TimeLock.exec (TimeLock.init A 100, no_money) 5 tl_events) as [((l, y), k)|] eqn:R; [|vm_compute in R; discriminate].
  exists l, y, k. split; [exact (replay_history _ _ _ _ _ _ _ R)|]. vm_compute in R. injection R as <- <- <-. vm_compute. repeat split.
Qed.
(** Carol is the agent between Alice and Bob. *)
Example C48_escrow_case : exists l y k, history Escrow.exec (Escrow.mk A B C, no_money) 5 l y k /\
  map paid_by l = [[]; [mk_payment B coin 50]; []; [mk_payment A native 8]] /\
  Escrow.exec (Escrow.Unlock coin) (by_ B 9) (begin (by_ B 9) (fst y) (snd y)) = None.
Proof.
  destruct (replay Escrow.exec (Escrow.mk A B C, no_money) 5 [Receive coin 50; Call (by_ C 6) (Escrow.Unlock coin); Receive native 8; Call (by_ C 7) (Escrow.Cancel native)]) as [((l, y), k)|] eqn:R;
    [|vm_compute in R; discriminate].
  exists l, y, k. split; [exact (replay_history _ _ _ _ _ _ _ R)|]. vm_compute in R. injection R as <- <- <-. vm_compute. repeat split.
Qed.
Example C48_transfer_case : exists l y k, history Transfer.exec (Transfer.mk A B, no_money) 5 l y k /\
  map paid_by l = [[]; [mk_payment B coin 50]; []; [mk_payment A coin 5]] /\ Transfer.exec (Transfer.Receive coin) (by_ A 9) (begin (by_ A 9) (fst y) (snd y)) = None.
Proof.
  destruct (replay Transfer.exec (Transfer.mk A B, no_money) 5 [Receive coin 50; Call (by_ B 6) (Transfer.Receive coin); Receive coin 5; Call (by_ A 7) (Transfer.Cancel coin)]) as [((l, y), k)|] eqn:R;
    [|vm_compute in R; discriminate].
  exists l, y, k. split; [exact (replay_history _ _ _ _ _ _ _ R)|]. vm_compute in R. injection R as <- <- <-. vm_compute. repeat split.
Qed.
(** Alice hands over to Bob, who accepts; from then on Alice gets nothing. *)
Example C48_relay_case : exists l y k, history Relay.exec (Relay.mk A None, no_money) 5 l y k /\
  map paid_by l = [[]; [mk_payment A coin 50]; []; []; []; [mk_payment B coin 5]] /\ Relay.owner (fst y) = B /\ Relay.exec (Relay.ClaimAll coin) (by_ A 9) (begin (by_ A 9) (fst y) (snd y)) = None.
Proof.
  destruct (replay Relay.exec (Relay.mk A None, no_money) 5 [Receive coin 50; Call (by_ A 6) (Relay.ClaimAll coin); Call (by_ A 7) (Relay.Transfer B); Call (by_ B 8) Relay.Complete; Receive coin 5; Call (by_ B 9) (Relay.ClaimAll coin)])
    as [((l, y), k)|] eqn:R; [|vm_compute in R; discriminate].
  exists l, y, k. split; [exact (replay_history _ _ _ _ _ _ _ R)|]. vm_compute in R. injection R as <- <- <-. vm_compute. repeat split.
Qed.
Example C48_token_case : exists l y k, history Token.exec (Token.mk A, no_money) 5 l y k /\
  map minted_by l = [[(C, 1000)]; []; []; [(B, 7)]] /\ map paid_by l = [[]; []; []; []] /\ Token.owner (fst y) = B /\ Token.exec (Token.MintTo A 1) (by_ A 9) (begin (by_ A 9) (fst y) (snd y)) = None.
Proof.
  destruct (replay Token.exec (Token.mk A, no_money) 5 [Call (by_ A 6) (Token.MintTo C 1000); Call (by_ A 7) (Token.Transfer B); Receive coin 4; Call (by_ B 8) (Token.MintTo B 7)]) as [((l, y), k)|] eqn:R;
    [|vm_compute in R; discriminate].
  exists l, y, k. split; [exact (replay_history _ _ _ _ _ _ _ R)|]. vm_compute in R. injection R as <- <- <-. vm_compute. repeat split.
Qed.
(** A plan that pays Bob 3 every 10 blocks from height 20: called by anybody at 25 and 30, refused at 39. *)
Definition rent : bytes := [114].
Example C48_wallet_case : exists x l y k q, history Wallet.exec (Wallet.mk A (fun _ => None), no_money) 5 x (fst l) (snd l) /\ history Wallet.exec (fst l) (snd l) y (fst k) (snd k) /\
  Wallet.plans (fst (fst l)) rent = Some q /\ Wallet.p_active q = true /\ Wallet.p_next q = 20 /\ Wallet.p_interval q = 10 /\ existsb (cancelled rent) y = false /\
  length (filter (is_payment rent) y) = 2%nat /\ map paid_by y = [[mk_payment B coin 3]; [mk_payment C coin 1]; [mk_payment B coin 3]] /\
  Wallet.exec (Wallet.PlanPayment rent) (by_ B 39) (begin (by_ B 39) (fst (fst k)) (snd (fst k))) = None.
Proof.
  destruct (replay Wallet.exec (Wallet.mk A (fun _ => None), no_money) 5 [Receive coin 50; Call (by_ A 6) (Wallet.AddPlan rent 3 coin B 10 (Some 20))]) as [((l, y), k)|] eqn:R; [|vm_compute in R; discriminate].
  destruct (replay Wallet.exec y k [Call (by_ B 25) (Wallet.PlanPayment rent); Call (by_ A 26) (Wallet.Transfer C 1 coin); Call (by_ C 30) (Wallet.PlanPayment rent)]) as [((l2, y2), k2)|] eqn:R2;
    [|vm_compute in R; injection R as <- <- <-; vm_compute in R2; discriminate].
  exists l, (y, k), l2, (y2, k2). pose proof (replay_history _ _ _ _ _ _ _ R) as H1. pose proof (replay_history _ _ _ _ _ _ _ R2) as H2.
  vm_compute in R. injection R as <- <- <-. vm_compute in R2. injection R2 as <- <- <-. eexists. split; [exact H1|]. split; [exact H2|]. split; [vm_compute; reflexivity|]. vm_compute. repeat split.
Qed.
Example C48_cancel_case : exists x y p m z l t k, history Wallet.exec (Wallet.mk A (fun _ => None), no_money) 5 x (fst y) (snd y) /\
  happens Wallet.exec (fst y) (Call (by_ A 30) (Wallet.CancelPlan rent)) p m z /\ history Wallet.exec z 30 l t k /\ length l = 1%nat /\
  Wallet.exec (Wallet.PlanPayment rent) (by_ B 45) (begin (by_ B 45) (fst t) (snd t)) = None.
Proof.
  destruct (replay Wallet.exec (Wallet.mk A (fun _ => None), no_money) 5 [Receive coin 50; Call (by_ A 6) (Wallet.AddPlan rent 3 coin B 10 (Some 20)); Call (by_ B 25) (Wallet.PlanPayment rent)]) as [((l, y), k)|] eqn:R; [|vm_compute in R; discriminate].
  destruct (replay Wallet.exec y k [Call (by_ A 30) (Wallet.CancelPlan rent)]) as [((l2, y2), k2)|] eqn:R2; [|vm_compute in R; injection R as <- <- <-; vm_compute in R2; discriminate].
  destruct (replay Wallet.exec y2 k2 [Receive coin 1]) as [((l3, y3), k3)|] eqn:R3; [|vm_compute in R; injection R as <- <- <-; vm_compute in R2; injection R2 as <- <- <-; vm_compute in R3; discriminate].
  pose proof (replay_history _ _ _ _ _ _ _ R) as H1. pose proof (replay_history _ _ _ _ _ _ _ R2) as H2. pose proof (replay_history _ _ _ _ _ _ _ R3) as H3.
  vm_compute in R. injection R as <- <- <-. vm_compute in R2. injection R2 as <- <- <-. vm_compute in R3. injection R3 as <- <- <-.
  inversion H2 as [|? ? ? ? ? ? ? ? ? ? HP ? ? H2']; subst. inversion H2'; subst.
  eexists _, (_, _), _, _, _, _, _, _. split; [exact H1|]. split; [exact HP|]. split; [exact H3|]. split; reflexivity.
Qed.
(** Locked to Bob's pool at 10, unlock request at 50: at 305 the rewards still go to Bob, at 306 to the farmer or to Alice. *)
Definition nft_events : list (event PlotNft.method) := [Receive coin 5; Call (by_ B 30) (PlotNft.ClaimAll coin); Call (by_ A 50) PlotNft.Unlock; Call (by_ A 60) (PlotNft.Transfer C); Call (by_ C 305) PlotNft.Unlock].
Example C47_case : exists x l y k, happens PlotNft.exec (PlotNft.init A, no_money) (Call (by_ A 10) (PlotNft.Lock B)) [] [] x /\
  PlotNft.unlock_height (fst x) = None /\ PlotNft.target (fst x) = Some B /\ history PlotNft.exec x 10 l y k /\
  (forall e, in_history (firstn 4 l) (Call e PlotNft.Unlock) -> 305 < e_height e + 256) /\
  map paid_by l = [[]; [mk_payment B coin 5]; []; []; []] /\
  option_map fst (PlotNft.mmx_reward_target (Some A) (by_ C 305) (begin (by_ C 305) (fst y) no_money)) = Some (Some B) /\
  option_map fst (PlotNft.mmx_reward_target (Some A) (by_ C 306) (begin (by_ C 306) (fst y) no_money)) = Some (Some A) /\
  option_map fst (PlotNft.mmx_reward_target None (by_ C 306) (begin (by_ C 306) (fst y) no_money)) = Some (Some C) /\
  PlotNft.exec (PlotNft.Lock C) (by_ C 305) (begin (by_ C 305) (fst y) no_money) = None.
Proof.
  destruct (PlotNft.exec (PlotNft.Lock B) (by_ A 10) (begin (by_ A 10) (PlotNft.init A) no_money)) as [([], c)|] eqn:E; [|vm_compute in E; discriminate].
  pose proof (happens_call PlotNft.exec (PlotNft.init A) no_money _ _ _ E) as HP. exists (c_vars c, c_bal c).
  destruct (replay PlotNft.exec (c_vars c, c_bal c) 10 nft_events) as [((l, y), k)|] eqn:R; [|vm_compute in E; injection E as <-; vm_compute in R; discriminate].
  exists l, y, k. pose proof (replay_history _ _ _ _ _ _ _ R) as H.
  vm_compute in E. injection E as <-. split; [exact HP|]. split; [reflexivity|]. split; [reflexivity|]. split; [exact H|]. vm_compute in R. injection R as <- <- <-. split.
  - intros e (p & m & I). cbn [firstn In] in I. destruct I as [I|[I|[I|[I|[]]]]]; try discriminate. injection I as <- _ _. reflexivity.
  - vm_compute. repeat split.
Qed.
Example C64_case : exists l y k, history Nft.exec (Nft.mk A None, no_money) 5 l y k /\ map minted_by l = [[]; [(B, 1)]] /\
  Nft.exec (Nft.MintTo B) (by_ A 9) (begin (by_ A 9) (fst y) (snd y)) = None.
Proof.
  destruct (replay Nft.exec (Nft.mk A None, no_money) 5 [Receive coin 5; Call (by_ A 6) (Nft.MintTo B)]) as [((l, y), k)|] eqn:R; [|vm_compute in R; discriminate].
  exists l, y, k. split; [exact (replay_history _ _ _ _ _ _ _ R)|]. vm_compute in R. injection R as <- <- <-. vm_compute. repeat split.
Qed.
Example C64_template_case : let exec := Template.exec (fun key => key) (fun msg key sg => addr_eqb sg (key ++ msg)) (fun self n => self ++ [n]) in
  exists l y k, history exec (Template.mk A (fun _ => None), no_money) 5 l y k /\ length l = 2%nat /\ Template.nfts (fst y) 1 = Some B /\ Template.nfts (fst y) 2 = Some C /\
  exec (Template.Add 1 A (A ++ repeat 9 32 ++ [1])) (by_ C 9) (begin (by_ C 9) (fst y) (snd y)) = None.
Proof.
  cbv zeta. set (exec := Template.exec (fun key => key) (fun msg key sg => addr_eqb sg (key ++ msg)) (fun self n => self ++ [n])).
  destruct (replay exec (Template.mk A (fun _ => None), no_money) 5 [Call (by_ B 6) (Template.Add 1 A (A ++ repeat 9 32 ++ [1])); Call (by_ C 6) (Template.Add 2 A (A ++ repeat 9 32 ++ [2]))]) as [((l, y), k)|] eqn:R;
    [|vm_compute in R; discriminate].
  exists l, y, k. split; [exact (replay_history _ _ _ _ _ _ _ R)|]. vm_compute in R. injection R as <- <- <-. vm_compute. repeat split.
Qed.
Example C65_case : exists l y k, history VirtualPlot.exec (VirtualPlot.mk A, no_money) 5 l y k /\
  map paid_by l = [[]; []; [mk_payment A native 45; mk_payment native native 6]; [mk_payment A coin 3]].
Proof.
  destruct (replay VirtualPlot.exec (VirtualPlot.mk A, no_money) 5 [Receive native 60; Receive coin 5; Call (by_ A 6) (VirtualPlot.Withdraw 51 native); Call (by_ A 7) (VirtualPlot.Withdraw 3 coin)]) as [((l, y), k)|] eqn:R;
    [|vm_compute in R; discriminate].
  exists l, y, k. split; [exact (replay_history _ _ _ _ _ _ _ R)|]. vm_compute in R. injection R as <- <- <-. vm_compute. repeat split.
Qed.
