(** C118: a locked wallet signs nothing without the passphrase, and is locked again.  C119: what the wallet signs and sends. *)
Require Import List Arith NArith Bool Lia.
From Verif Require Import BytesLib EngineModel EngineUpper SigModel SgnModel SgnSpec SgnProofs.
Import ListNotations.
Open Scope N_scope.

Section PROPS.
  Variables (get_addr : bytes -> addr) (sign : bytes -> bytes -> bytes) (verify : bytes -> bytes -> bytes -> bool) (derive : bytes -> nat -> bytes * bytes)
    (finger_print : bytes -> bytes) (calc_hash : core -> bytes) (full_hash : txn -> bytes) (base_cost : core_parts -> N) (sol_cost : solution -> N) (rand : N)
    (network : bytes) (version : N) (cfg : config)
    (choose : txn -> options -> option (list N * list (addr * addr * N * option bytes) * option addr)) (contracts : addr -> option contract)
    (accept validates : txn -> bool) (lock_timeout : N) (sol_hash : solution -> bytes).
  Notation right := (right get_addr derive finger_print cfg).
  Notation opened := (opened get_addr derive cfg).
  Notation has := (has get_addr derive cfg).
  Notation address_of := (address_of get_addr derive).
  Notation unlock := (unlock get_addr derive finger_print cfg).
  Notation no_twins := (no_twins get_addr derive).
  Notation sign_off := (sign_off get_addr sign derive finger_print calc_hash full_hash base_cost sol_cost rand network cfg).
  Notation sign_body := (sign_body sign calc_hash full_hash base_cost sol_cost rand network).
  Notation complete := (complete get_addr sign derive finger_print calc_hash full_hash base_cost sol_cost rand network version cfg choose).
  Notation prepare := (prepare base_cost sol_cost version choose).
  Notation perform := (perform get_addr sign derive finger_print calc_hash full_hash base_cost sol_cost rand network version cfg choose contracts accept validates).
  Notation act := (act get_addr sign derive finger_print calc_hash full_hash base_cost sol_cost rand network version cfg choose contracts accept validates lock_timeout).
  Notation acts := (acts get_addr sign derive finger_print calc_hash full_hash base_cost sol_cost rand network version cfg choose contracts accept validates lock_timeout).
  Notation node_accepts_signatures := (node_accepts_signatures get_addr verify contracts).
  Notation may_spend := (may_spend get_addr derive cfg contracts).
  Notation may_act := (may_act get_addr derive cfg contracts).

  (** C118: as long as no right passphrase is given, every attempt to sign with a locked wallet fails and nothing changes in it, whatever else is tried, for however long *)
  Theorem C118_locked g l g' xs : (0 < c_num_addresses cfg)%nat -> closed (v_wallet (g_world g)) ->
    (forall now a p, In (now, a) l -> carries a p -> ~ right (w_addresses (v_wallet (g_world g))) p) -> acts g l = (g', xs) ->
    v_wallet (g_world g') = v_wallet (g_world g) /\ Forall2 (fun e x => signs (snd e) -> x = Failed) l xs.
  Proof. intros num. now apply acts_closed. Qed.

  (** C118: a right passphrase, and no other one, unlocks; the keys in memory are then exactly those of the passphrase *)
  Theorem C118_unlock w p : (0 < c_num_addresses cfg)%nat -> closed w \/ (no_twins /\ exists q, opened q w) ->
    (right (w_addresses w) p -> exists w', unlock w p = Ret w' /\ opened p w') /\ (~ right (w_addresses w) p -> unlock w p = Throw).
  Proof.
    intros num C. split; [|now apply unlock_wrong].
    intros R. pose proof (unlock_ok get_addr derive finger_print cfg w p num R) as E. eexists. split; [exact E|].
    destruct C as [C|(NT & q & O)]; [now apply (unlock_closed get_addr derive finger_print cfg w p _ num C E)|].
    now apply (unlock_opened get_addr derive finger_print cfg w p q _ num NT O E).
  Qed.

  (** C118: at any time the wallet has no keys in memory, or all those of a passphrase *)
  Theorem C118_states g l : (0 < c_num_addresses cfg)%nat -> no_twins -> closed (v_wallet (g_world g)) ->
    closed (v_wallet (g_world (fst (acts g l)))) \/ exists p, opened p (v_wallet (g_world (fst (acts g l)))).
  Proof. intros num NT C. apply acts_wf; auto. now left. Qed.

  (** C118: nothing but locking, unlocking and the timer changes whether the wallet is locked, also when a passphrase comes with the request and whether it fails or not *)
  Theorem C118_restored g l now a : (0 < c_num_addresses cfg)%nat -> no_twins -> closed (v_wallet (g_world g)) -> (forall p, a <> AUnlock p) -> a <> ALock ->
    (forall d, g_timer (fst (acts g l)) = Some d -> now < d) ->
    is_locked (v_wallet (g_world (fst (act (fst (acts g l)) now a)))) = is_locked (v_wallet (g_world (fst (acts g l)))).
  Proof.
    intros num NT C Hu Hl Ht. set (g1 := fst (acts g l)) in *.
    assert (W : wf get_addr derive cfg (v_wallet (g_world g1))) by (apply acts_wf; auto; now left).
    assert (E : expire g1 now = g1).
    { unfold expire. destruct (g_timer g1) as [d|]; [|reflexivity]. destruct (N.leb_spec d now) as [L|L]; [|reflexivity]. specialize (Ht d eq_refl). lia. }
    assert (O : other a) by (destruct a; try exact Coq.Init.Logic.I; [exact (Hu p eq_refl)|exact (Hl eq_refl)]).
    destruct (act g1 now a) as (g2, x) eqn:Ea. apply act_other in Ea; auto; rewrite E in *; auto. apply Ea.
  Qed.

  (** C118: an account with a passphrase is unlocked only for the time of the timeout after an unlock or a request to send *)
  Theorem C118_timeout g l now : (0 < c_num_addresses cfg)%nat -> no_twins -> c_with_passphrase cfg = true -> 0 < lock_timeout -> closed (v_wallet (g_world g)) ->
    is_locked (v_wallet (g_world (expire (fst (acts g l)) now))) = false ->
    exists t a, In (t, a) l /\ (match a with AUnlock _ | ASendOff _ => True | APerform _ o => o_auto_send o = true | _ => False end) /\ now < t + lock_timeout.
  Proof.
    intros num NT WP LT C H.
    assert (T : timed lock_timeout ([] ++ l) (fst (acts g l))) by (apply timed_acts; auto; left; exact C).
    set (g1 := fst (acts g l)) in *. unfold expire in H. destruct T as [C1|(d & t & a & H1 & H2 & H3 & ->)].
    - exfalso. destruct (g_timer g1) as [d|]; [destruct (d <=? now)|]; cbn in H; rewrite closed_locked in H; try discriminate; auto using lock_closed.
    - rewrite H1 in H. destruct (N.leb_spec (t + lock_timeout) now) as [L|L]; [cbn in H; rewrite closed_locked in H by apply lock_closed; discriminate|].
      exists t, a. auto.
  Qed.

  (** C119 *)
  Definition correct : Prop := forall p i m, verify (snd (derive p i)) (sign (fst (derive p i)) m) m = true.
  Definition ready (p : bytes) (w : wallet) (opts : options) : Prop := opened p w \/ (closed w /\ o_passphrase opts = Some p /\ right (w_addresses w) p).
  Lemma prepare_fresh t opts t' : fresh t -> prepare t opts = Ret t' -> fresh t' /\ t_outputs t' = t_outputs t /\ t_execute t' = t_execute t /\ t_deploy t' = t_deploy t
    /\ t_version t' = version /\ t_expires t' = N.min (t_expires t) (o_expires opts) /\ t_fee_ratio t' = N.max (t_fee_ratio t) (o_fee_ratio opts)
    /\ (exists c fee, calc_cost base_cost sol_cost t' = Ret c /\ cost_to_fee ((c + o_gas_limit opts) mod 2^64) (t_fee_ratio t') = Ret fee /\ t_max_fee t' = fee mod 2^32).
  Proof.
    intros (F1 & F2 & F3) E. unfold SgnModel.prepare in E.
    match type of E with (match choose ?x _ with _ => _ end) = _ => set (t1 := x) in * end.
    destruct (choose t1 opts) as [((am, new), picked)|]; [|discriminate].
    match type of E with rbind (calc_cost _ _ ?x) _ = _ => destruct (calc_cost base_cost sol_cost x) as [|c] eqn:Ec; [discriminate|] end. cbn [rbind] in E.
    destruct (cost_to_fee c (t_fee_ratio t1)); [discriminate|]. cbn [rbind] in E.
    destruct (cost_to_fee ((c + o_gas_limit opts) mod 2^64) (t_fee_ratio t1)) as [|fee] eqn:Ef; [discriminate|]. cbn [rbind] in E.
    injection E as <-. split; [|repeat split].
    - split; [exact F1|]. split; [|exact F3]. cbn [t_inputs]. intros i Hi. apply in_app_or in Hi. destruct Hi as [Hi|Hi]; apply in_map_iff in Hi.
      + destruct Hi as ((i0, a0) & <- & Hin). apply in_combine_l in Hin. cbn. apply F2. exact Hin.
      + destruct Hi as ((((a0, c0), n0), m0) & <- & Hin). split; reflexivity.
    - exists c, fee. split; [|split; [exact Ef|reflexivity]]. rewrite <- Ec. apply calc_cost_same; reflexivity.
  Qed.
  Lemma complete_inv p w t opts w' t' : (0 < c_num_addresses cfg)%nat -> ready p w opts -> complete w t opts = (w', Ret t') ->
    exists w1 t2, opened p w1 /\ prepare t opts = Ret t2 /\ sign_body w1 t2 opts = Ret t'.
  Proof.
    intros num R E. unfold SgnModel.complete in E.
    assert (K : exists w1, opened p w1 /\ snd (match prepare t opts with Throw => (w1, Throw) | Ret t => sign_off w1 t opts end) = Ret t').
    { destruct R as [O|(C & Hp & R)].
      - rewrite (with_keys_opened get_addr derive finger_print cfg num p) in E by exact O. exists w. split; [exact O|]. now rewrite E.
      - destruct (with_keys_right get_addr derive finger_print cfg num w opts p (fun w => match prepare t opts with Throw => (w, Throw) | Ret t => sign_off w t opts end) C Hp R)
          as (w1 & O & Eq). rewrite Eq in E. exists w1. split; [exact O|]. now injection E. }
    destruct K as (w1 & O & K). destruct (prepare t opts) as [|t2]; [discriminate|]. exists w1, t2. split; [exact O|]. split; [reflexivity|].
    unfold SgnModel.sign_off in K. rewrite (with_keys_opened get_addr derive finger_print cfg num p) in K by exact O. exact K.
  Qed.
  Lemma sign_off_inv p w t opts w' t' : (0 < c_num_addresses cfg)%nat -> ready p w opts -> sign_off w t opts = (w', Ret t') -> exists w1, opened p w1 /\ sign_body w1 t opts = Ret t'.
  Proof.
    intros num [O|(C & Hp & R)] E; unfold SgnModel.sign_off in E.
    - rewrite (with_keys_opened get_addr derive finger_print cfg num p) in E by exact O. exists w. split; [exact O|]. now injection E.
    - destruct (with_keys_right get_addr derive finger_print cfg num w opts p (fun w => (w, sign_body w t opts)) C Hp R) as (w1 & O & Eq). rewrite Eq in E. exists w1.
      split; [exact O|]. now injection E.
  Qed.

  (** A signature of [o] satisfies exactly the contracts that take it *)
  Lemma validate_good c id v o s : good get_addr verify id o s -> (contract_validate get_addr verify c (Some s) id v = true <-> takes c o).
  Proof.
    intros (pk & sg & -> & Ha & Hv). destruct c; cbn.
    - rewrite Ha, Hv. destruct (addr_eqb_spec o a); cbn; split; congruence.
    - rewrite Ha, Hv. destruct (N.eqb_spec (ms_required m) 1) as [E|E]; cbn; [|split; [discriminate|intros (? & _); contradiction]].
      unfold owner. split.
      + intros H. split; [exact E|]. destruct (existsb (addr_eqb o) (ms_owners m)) eqn:X; [|discriminate]. apply existsb_exists in X. destruct X as (y & Hy & Ey).
        apply addr_eqb_eq in Ey. now subst.
      + intros (_ & Hin). replace (existsb (addr_eqb o) (ms_owners m)) with true; [reflexivity|]. symmetry. apply existsb_exists. exists o. split; [exact Hin|]. now apply addr_eqb_eq.
    - split; [discriminate|intros []].
  Qed.
  Lemma validate_none c id v : contract_validate get_addr verify c None id v = false.
  Proof. destruct c; reflexivity. Qed.

  Section SIGNED.
    Variables (p : bytes) (w1 : wallet) (opts : options) (t t' : txn) (os : list addr).
    Hypothesis O : opened p w1.
    Hypothesis SB : signed_by get_addr verify derive cfg p opts t t' os.
    Hypothesis small : (List.length (t_solutions t') <= N.to_nat 65535)%nat.
    Hypothesis snd' : t_sender t' = t_sender t.
    Lemma os_len : List.length os = List.length (t_solutions t').
    Proof. destruct SB as (_ & _ & F & _). exact (Forall2_len _ _ _ F). Qed.
    Lemma index_small i : (i < List.length os)%nat -> N.to_nat (N.of_nat i mod 65536) = i.
    Proof.
      intros H. rewrite os_len in H. rewrite N.mod_small; [apply Nat2N.id|].
      assert (X : (i < N.to_nat 65535)%nat) by lia. clear - X. lia.
    Qed.
    Lemma index_sol a k : index_for get_addr derive cfg p os a k ->
      (has p a -> exists s, get_solution t' k = Some s /\ good get_addr verify (t_id t') a s) /\ (~ has p a -> get_solution t' k = None).
    Proof.
      intros (H1 & H2). unfold get_solution. split.
      - intros H. destruct (H1 H) as (i & Hi & ->). assert (L : (i < List.length os)%nat) by (apply nth_error_Some; congruence). rewrite index_small by exact L.
        destruct SB as (_ & _ & F & _). clear - F Hi. revert i Hi. induction F as [|a0 s0 os sols G F IH]; intros i Hi; [destruct i; discriminate|].
        destruct i; cbn in *; [injection Hi as ->; eauto|auto].
      - intros H. rewrite (H2 H). apply nth_error_None. exact small.
    Qed.
    Lemma inputs_iff : forallb (input_ok get_addr verify contracts t') (t_inputs t') = true <-> (forall i, In i (t_inputs t') -> may_spend opts p (in_address i)).
    Proof.
      destruct SB as (_ & _ & _ & F & _). rewrite forallb_forall.
      assert (K : forall i', In i' (t_inputs t') -> exists i, in_rel get_addr derive cfg p (o_owner_map opts) os i i').
      { clear - F. induction F as [|x y l l' R F IH]; intros i' [].
        - subst. eauto.
        - auto. }
      split; intros H i' Hi'; destruct (K i' Hi') as (i & R1 & R2 & R3); specialize (H i' Hi').
      - unfold input_ok in H. assert (Ea : in_address i' = in_address i) by (now injection R1). rewrite R2 in H. rewrite <- Ea in *.
        unfold SgnSpec.may_spend. unfold owner_of in R3. destruct (lookup (o_owner_map opts) (in_address i')) as [o|] eqn:El.
        + right. destruct (has_dec get_addr derive cfg p w1 O o) as [Hh|Hh].
          * destruct (proj1 (index_sol o _ R3) Hh) as (s & Es & G). rewrite Es in H. destruct (contracts (in_address i')) as [c|]; [|discriminate].
            exists o, c. repeat split; auto. now apply (validate_good c _ (t_version t') o s G).
          * rewrite (proj2 (index_sol o _ R3) Hh) in H. discriminate.
        + left. split; [reflexivity|]. destruct (has_dec get_addr derive cfg p w1 O (in_address i')) as [Hh|Hh]; [exact Hh|].
          rewrite (proj2 (index_sol _ _ R3) Hh) in H. discriminate.
      - unfold input_ok. assert (Ea : in_address i' = in_address i) by (now injection R1). rewrite R2, <- Ea. rewrite <- Ea in R3. unfold owner_of in R3.
        destruct H as [(El & Hh)|(o & c & El & Hh & Ec & Tk)]; rewrite El in *.
        + destruct (proj1 (index_sol _ _ R3) Hh) as (s & -> & G). now apply (validate_good (CPubKey (in_address i')) _ (t_version t') _ s G).
        + destruct (proj1 (index_sol _ _ R3) Hh) as (s & -> & G). rewrite Ec. now apply (validate_good c _ (t_version t') _ s G).
    Qed.
    Lemma ops_iff : forallb (op_ok get_addr verify contracts t') (t_execute t') = true <-> (forall o u, In o (t_execute t') -> op_user o = Some u -> may_act p u).
    Proof.
      destruct SB as (_ & _ & _ & _ & F & _). rewrite forallb_forall.
      assert (K : forall i', In i' (t_execute t') -> exists i, op_rel get_addr derive cfg p os i i').
      { clear - F. induction F as [|x y l l' R F IH]; intros i' [].
        - subst. eauto.
        - auto. }
      split.
      - intros H o' u Ho' Hu. destruct (K o' Ho') as (o & R1 & R2). specialize (H o' Ho'). unfold op_ok in H. rewrite Hu in H.
        assert (Eu : op_user o = Some u) by (rewrite <- Hu; now injection R1). specialize (R2 u Eu).
        destruct (has_dec get_addr derive cfg p w1 O u) as [Hh|Hh].
        + destruct (proj1 (index_sol _ _ R2) Hh) as (s & Es & G). rewrite Es in H. apply (validate_good _ _ (t_version t') u s G) in H.
          split; [exact Hh|]. intros c Ec. now rewrite Ec in H.
        + rewrite (proj2 (index_sol _ _ R2) Hh), validate_none in H. discriminate.
      - intros H o' Ho'. destruct (K o' Ho') as (o & R1 & R2). unfold op_ok. destruct (op_user o') as [u|] eqn:Hu; [|reflexivity].
        destruct (H o' u Ho' Hu) as (Hh & Hc). assert (Eu : op_user o = Some u) by (rewrite <- Hu; now injection R1). specialize (R2 u Eu).
        destruct (proj1 (index_sol _ _ R2) Hh) as (s & -> & G). apply (validate_good _ _ (t_version t') u s G).
        destruct (contracts u) as [c|]; [now apply Hc|reflexivity].
    Qed.
    Lemma sender_iff : sender_ok get_addr verify t' = true <-> exists a, t_sender t' = Some a /\ has p a.
    Proof.
      destruct SB as (_ & F0 & F & _ & _ & Fs & _). unfold sender_ok. rewrite snd'. destruct (t_sender t) as [a|]; [|split; [discriminate|intros (a & E & _); discriminate]].
      destruct (has_dec get_addr derive cfg p w1 O a) as [Hh|Hh].
      - specialize (Fs a eq_refl Hh). destruct os as [|o os']; [discriminate|]. injection Fs as ->. inversion F as [|x s l l' G F' E1 E2]. subst.
        destruct G as (pk & sg & -> & Ha & Hv). cbn. rewrite Ha, (proj2 (addr_eqb_eq a a) eq_refl), Hv. cbn. split; eauto.
      - split; [|intros (b & [= <-] & Hb); contradiction]. inversion F as [E1 E2|x s l l' G F' E1 E2]; [discriminate|]. subst.
        destruct G as (pk & sg & -> & Ha & Hv). cbn. rewrite Ha. destruct (addr_eqb_spec x a) as [->|]; [|discriminate].
        inversion F0; subst. contradiction.
    Qed.
    Lemma accepted_iff : node_accepts_signatures t' = true <->
      (exists a, t_sender t' = Some a /\ has p a) /\ (forall i, In i (t_inputs t') -> may_spend opts p (in_address i)) /\ (forall o u, In o (t_execute t') -> op_user o = Some u -> may_act p u).
    Proof. unfold SgnModel.node_accepts_signatures. rewrite !andb_true_iff, sender_iff, inputs_iff, ops_iff. tauto. Qed.
    Lemma signed_iff : is_signed t' = true <-> (forall i o, In i (t_inputs t') -> signer opts (in_address i) o -> has p o).
    Proof.
      unfold is_signed. rewrite forallb_forall. pose proof SB as (_ & _ & _ & F & _).
      assert (K : forall i', In i' (t_inputs t') -> exists i, in_rel get_addr derive cfg p (o_owner_map opts) os i i').
      { clear - F. induction F as [|x y l l' R F IH]; intros i' [].
        - subst. eauto.
        - auto. }
      split.
      - intros H i' o Hi' Hs. destruct (K i' Hi') as (i & R1 & R2 & R3). specialize (H i' Hi'). assert (Ea : in_address i' = in_address i) by (now injection R1).
        rewrite <- Ea in R3. unfold owner_of in R3.
        assert (Eo : match lookup (o_owner_map opts) (in_address i') with Some o => o | None => in_address i' end = o).
        { destruct Hs as [(-> & ->)| ->]; reflexivity. }
        rewrite Eo in R3. destruct (has_dec get_addr derive cfg p w1 O o) as [Hh|Hh]; [exact Hh|].
        pose proof (proj2 (index_sol _ _ R3) Hh) as N1. unfold get_solution in N1. apply nth_error_None in N1. apply Nat.ltb_lt in H. lia.
      - intros H i' Hi'. destruct (K i' Hi') as (i & R1 & R2 & R3). assert (Ea : in_address i' = in_address i) by (now injection R1). rewrite <- Ea in R3. unfold owner_of in R3.
        apply Nat.ltb_lt. apply nth_error_Some.
        assert (Hh : has p (match lookup (o_owner_map opts) (in_address i') with Some o => o | None => in_address i' end)).
        { apply (H i' _ Hi'). unfold signer. destruct (lookup (o_owner_map opts) (in_address i')); auto. }
        destruct (proj1 (index_sol _ _ R3) Hh) as (s & Es & _). unfold get_solution in Es. congruence.
    Qed.
    Lemma distinct_nodup l : NoDup l -> distinct l = true.
    Proof.
      induction l as [|x l IH]; intros H; [reflexivity|]. inversion H as [|? ? H1 H2]. subst. cbn. rewrite IH by exact H2. rewrite andb_true_r. apply negb_true_iff.
      destruct (existsb (addr_eqb x) l) eqn:E; [|reflexivity]. apply existsb_exists in E. destruct E as (y & Hy & Ey). apply addr_eqb_eq in Ey. subst. contradiction.
    Qed.
    Lemma valid_solutions : (forall s s', sol_hash s = sol_hash s' -> s = s') -> t_id t' = calc_hash (core_of t') -> solutions_valid calc_hash sol_hash t' = true.
    Proof.
      intros inj Hid. unfold solutions_valid. rewrite Hid at 1. rewrite (proj2 (addr_eqb_eq _ _) eq_refl), andb_true_r.
      apply andb_true_iff. split; [|now apply Nat.leb_le]. destruct (1 <=? t_version t'); [|reflexivity]. apply andb_true_iff.
      pose proof SB as (ND & _ & F & _ & _ & _ & U). split.
      - apply distinct_nodup. clear - ND F inj. induction F as [|a s os sols G F IH]; cbn; [constructor|]. inversion ND as [|? ? N1 N2]. subst. constructor; [|auto].
        intros Hin. apply in_map_iff in Hin. destruct Hin as (s' & E & Hin). apply inj in E. subst s'. apply N1. clear - F G Hin.
        destruct G as (pk & sg & -> & Ha & _). induction F as [|a' s' os sols G' F IH]; [destruct Hin|]. destruct Hin as [E0|Hin]; [subst s'|right; auto].
        destruct G' as (pk' & sg' & E & Ha' & _). injection E as -> ->. left. congruence.
      - apply forallb_forall. intros j Hj. apply in_seq in Hj. rewrite <- os_len in Hj.
        unfold used. destruct (U j) as [(-> & Hs)|[(i & Hi & Hs)|(o & Ho & Hu & Hs)]]; [lia| | |].
        + destruct (t_sender t'); [reflexivity|congruence].
        + apply orb_true_iff. left. apply orb_true_iff. right. apply existsb_exists. exists i. split; [exact Hi|]. rewrite Hs, index_small by lia. apply Nat.eqb_refl.
        + apply orb_true_iff. right. apply existsb_exists. exists o. split; [exact Ho|]. destruct (op_user o); [|congruence]. rewrite Hs, index_small by lia. apply Nat.eqb_refl.
    Qed.
  End SIGNED.

  (** C119: the signatures of a transaction that the wallet made are accepted by the node exactly if the wallet has the keys of the sender, of the owners of all
      inputs and of all users of operations *)
  Theorem C119_accepted p w t opts w' t' : (0 < c_num_addresses cfg)%nat -> correct -> ready p w opts -> fresh t ->
    complete w t opts = (w', Ret t') \/ sign_off w t opts = (w', Ret t') -> (List.length (t_solutions t') <= N.to_nat 65535)%nat ->
    (node_accepts_signatures t' = true <->
      (exists a, t_sender t' = Some a /\ has p a) /\ (forall i, In i (t_inputs t') -> may_spend opts p (in_address i))
      /\ (forall o u, In o (t_execute t') -> op_user o = Some u -> may_act p u)).
  Proof.
    intros num snd R F E small.
    assert (K : exists w1 t2 os, opened p w1 /\ signed_by get_addr verify derive cfg p opts t2 t' os /\ t_sender t' = t_sender t2).
    { destruct E as [E|E].
      - destruct (complete_inv p w t opts w' t' num R E) as (w1 & t2 & O & Ep & Es). destruct (prepare_fresh t opts t2 F Ep) as (F2 & _).
        destruct (body_spec get_addr sign verify derive calc_hash full_hash base_cost sol_cost rand network cfg num snd p w1 O t2 opts t' F2 Es) as (os & SB & _ & Hs & _).
        exists w1, t2, os. auto.
      - destruct (sign_off_inv p w t opts w' t' num R E) as (w1 & O & Es).
        destruct (body_spec get_addr sign verify derive calc_hash full_hash base_cost sol_cost rand network cfg num snd p w1 O t opts t' F Es) as (os & SB & _ & Hs & _).
        exists w1, t, os. auto. }
    destruct K as (w1 & t2 & os & O & SB & Hs). exact (accepted_iff p w1 opts t2 t' os O SB small Hs).
  Qed.
  (** C119: it is as the rules for signatures demand: no signature twice, none that is not used, and the id is the hash *)
  Theorem C119_valid p w t opts w' t' : (0 < c_num_addresses cfg)%nat -> correct -> ready p w opts -> fresh t -> (forall s s', sol_hash s = sol_hash s' -> s = s') ->
    complete w t opts = (w', Ret t') \/ sign_off w t opts = (w', Ret t') -> (List.length (t_solutions t') <= N.to_nat 65535)%nat ->
    solutions_valid calc_hash sol_hash t' = true.
  Proof.
    intros num snd R F inj E small. destruct E as [E|E].
    - destruct (complete_inv p w t opts w' t' num R E) as (w1 & t2 & O & Ep & Es). destruct (prepare_fresh t opts t2 F Ep) as (F2 & _).
      destruct (body_spec get_addr sign verify derive calc_hash full_hash base_cost sol_cost rand network cfg num snd p w1 O t2 opts t' F2 Es) as (os & SB & Hid & Hs & _).
      exact (valid_solutions p opts t2 t' os SB small Hs inj Hid).
    - destruct (sign_off_inv p w t opts w' t' num R E) as (w1 & O & Es).
      destruct (body_spec get_addr sign verify derive calc_hash full_hash base_cost sol_cost rand network cfg num snd p w1 O t opts t' F Es) as (os & SB & Hid & Hs & _).
      exact (valid_solutions p opts t t' os SB small Hs inj Hid).
  Qed.
  (** C119: the transaction counts as signed exactly if the wallet has the keys for all inputs *)
  Theorem C119_is_signed p w t opts w' t' : (0 < c_num_addresses cfg)%nat -> correct -> ready p w opts -> fresh t ->
    complete w t opts = (w', Ret t') -> (List.length (t_solutions t') <= N.to_nat 65535)%nat ->
    (is_signed t' = true <-> forall i o, In i (t_inputs t') -> signer opts (in_address i) o -> has p o).
  Proof.
    intros num snd R F E small. destruct (complete_inv p w t opts w' t' num R E) as (w1 & t2 & O & Ep & Es). destruct (prepare_fresh t opts t2 F Ep) as (F2 & _).
    destruct (body_spec get_addr sign verify derive calc_hash full_hash base_cost sol_cost rand network cfg num snd p w1 O t2 opts t' F2 Es) as (os & SB & _).
    exact (signed_iff p w1 opts t2 t' os O SB small).
  Qed.
  (** C119: with enough gas for the signatures, and fees below 2^32, the fee for the finished transaction is within the limit it states *)
  Theorem C119_fee p w t opts w' t' c : (0 < c_num_addresses cfg)%nat -> correct -> ready p w opts -> fresh t -> complete w t opts = (w', Ret t') ->
    calc_cost base_cost sol_cost t' = Ret c -> c < 2^32 -> fold_right N.add 0 (map sol_cost (t_solutions t')) <= o_gas_limit opts ->
    (c + o_gas_limit opts) * t_fee_ratio t' / 1024 < 2^32 -> c + o_gas_limit opts < 2^64 ->
    t_static_cost t' = c /\ exists fee, cost_to_fee (t_static_cost t') (t_fee_ratio t') = Ret fee /\ fee <= t_max_fee t'.
  Proof.
    intros num snd R F E Ec Hc Hg Hf Hb. destruct (complete_inv p w t opts w' t' num R E) as (w1 & t2 & O & Ep & Es).
    destruct (prepare_fresh t opts t2 F Ep) as (F2 & _ & _ & _ & _ & _ & _ & (c0 & fee0 & Ec0 & Ef0 & Em0)).
    destruct (body_spec get_addr sign verify derive calc_hash full_hash base_cost sol_cost rand network cfg num snd p w1 O t2 opts t' F2 Es)
      as (os & SB & _ & _ & Eo & Ed & _ & _ & Er & Emf & _ & _ & _ & Est).
    specialize (Est c Ec). rewrite N.mod_small in Est by exact Hc. split; [exact Est|]. rewrite Est, Er, Emf, Em0 in *.
    assert (Ep2 : parts_of t' = parts_of t2).
    { unfold parts_of. destruct SB as (_ & _ & _ & R1 & R2 & _). rewrite (map_core_inputs _ _ _ _ _ _ _ _ R1), (map_core_ops _ _ _ _ _ _ _ R2), Eo, Ed. reflexivity. }
    unfold calc_cost in Ec, Ec0. rewrite Ep2 in Ec. destruct F2 as (F2 & _). rewrite F2 in Ec0. cbn [map fold_right] in Ec0.
    set (base := base_cost (parts_of t2)) in *. set (sg := fold_right N.add 0 (map sol_cost (t_solutions t'))) in *.
    destruct (N.ltb_spec (base + sg) (2^64)); [|discriminate]. destruct (N.ltb_spec (base + 0) (2^64)); [|discriminate]. injection Ec as <-. injection Ec0 as <-.
    assert (L : base + sg <= base + 0 + o_gas_limit opts) by lia.
    unfold cost_to_fee in *. rewrite (N.mod_small (base + 0 + o_gas_limit opts)) in Ef0 by lia.
    destruct (N.ltb_spec ((base + 0 + o_gas_limit opts) * t_fee_ratio t2 / 1024) (2^64)); [|discriminate]. injection Ef0 as <-.
    assert (M1 : (base + sg) * t_fee_ratio t2 / 1024 <= (base + 0 + o_gas_limit opts) * t_fee_ratio t2 / 1024).
    { apply N.div_le_mono; [lia|]. now apply N.mul_le_mono_r. }
    assert (M2 : (base + 0 + o_gas_limit opts) * t_fee_ratio t2 / 1024 <= (base + sg + o_gas_limit opts) * t_fee_ratio t2 / 1024).
    { apply N.div_le_mono; [lia|]. apply N.mul_le_mono_r. lia. }
    exists ((base + sg) * t_fee_ratio t2 / 1024). destruct (N.ltb_spec ((base + sg) * t_fee_ratio t2 / 1024) (2^64)) as [?|B].
    - split; [reflexivity|]. rewrite N.mod_small by lia. exact M1.
    - exfalso. lia.
  Qed.
  Lemma complete_parts p w t opts w' t' : (0 < c_num_addresses cfg)%nat -> correct -> ready p w opts -> fresh t -> complete w t opts = (w', Ret t') ->
    t_outputs t' = t_outputs t /\ map op_core (t_execute t') = map op_core (t_execute t) /\ t_deploy t' = t_deploy t.
  Proof.
    intros num snd R F E. destruct (complete_inv p w t opts w' t' num R E) as (w1 & t2 & O & Ep & Es).
    destruct (prepare_fresh t opts t2 F Ep) as (F2 & P1 & P2 & P3 & _).
    destruct (body_spec get_addr sign verify derive calc_hash full_hash base_cost sol_cost rand network cfg num snd p w1 O t2 opts t' F2 Es) as (os & SB & _ & _ & Eo & Ed & _).
    split; [congruence|]. split; [|congruence]. destruct SB as (_ & _ & _ & _ & R2 & _). rewrite (map_core_ops _ _ _ _ _ _ _ R2). congruence.
  Qed.
  Lemma one_op o l : map op_core l = map op_core [o] -> exists k, l = [mk_op (op_address o) (op_call o) (op_deposit o) (op_user o) k].
  Proof. destruct l as [|x [|y l]]; try discriminate. intros H. injection H as H1 H2 H3 H4. exists (op_solution x). destruct x; cbn in *. now subst. Qed.
  Lemma map_nil_inv {A B} (f : A -> B) l : map f l = [] -> l = [].
  Proof. destruct l; [reflexivity|discriminate]. Qed.
  Lemma build_fresh v r opts t opts' : build contracts v r opts = Some (t, opts') ->
    fresh t /\ o_passphrase opts' = o_passphrase opts /\ o_auto_send opts' = o_auto_send opts /\ o_mark_spent opts' = o_mark_spent opts.
  Proof.
    assert (G : forall note ins outs ops dep, (forall i, In i ins -> in_solution i = NO_SOLUTION /\ N.testbit (in_flags i) 0 = false) -> (forall o, In o ops -> op_solution o = NO_SOLUTION) ->
      fresh (with_parts note ins outs ops dep)) by (intros; split; [reflexivity|split; assumption]).
    destruct r; cbn [build]; intros H;
      repeat match type of H with context [match ?x with _ => _ end] => destruct x; try discriminate end; injection H as <- <-;
      (split; [apply G; cbn; intros ? Hi; repeat destruct Hi as [<-|Hi]; try destruct Hi; auto|repeat split]).
  Qed.
  (** C119: a request is carried out as asked, or not at all: the transaction that comes back has the outputs, the operations and the contract asked for; it was sent
      exactly if it was to be sent and has all signatures of inputs, and then the node took it, it is in the log and off the balances; if the request fails, nothing was
      sent, logged or taken off *)
  Theorem C119_request p v r opts v' x : (0 < c_num_addresses cfg)%nat -> correct -> ready p (v_wallet v) opts -> perform v r opts = (v', x) ->
    match x with
    | Throw => v_sent v' = v_sent v /\ v_log v' = v_log v /\ v_taken v' = v_taken v
    | Ret t => asked (v_wallet v) opts r t /\
        (if o_auto_send opts && is_signed t then accept t = true /\ v_sent v' = v_sent v ++ [t] /\ v_log v' = v_log v ++ [t] /\ In t (v_taken v')
         else v_sent v' = v_sent v /\ v_log v' = v_log v /\ (o_mark_spent opts = false -> v_taken v' = v_taken v))
        /\ (forall y, In y (v_taken v') -> In y (v_taken v) \/ y = t)
    end.
  Proof.
    intros num snd R E. unfold SgnModel.perform in E. destruct (build contracts v r opts) as [(t0, opts')|] eqn:Eb; [|injection E as <- <-; auto].
    destruct (build_fresh v r opts t0 opts' Eb) as (F & Hp & Ha & Hm).
    assert (R' : ready p (v_wallet v) opts') by (destruct R as [O|R]; [now left|right; now rewrite Hp]).
    unfold SgnModel.dispatch in E. destruct (complete (v_wallet v) t0 opts') as (w, y) eqn:Ec. destruct y as [|t]; [injection E as <- <-; auto|].
    assert (A : asked (v_wallet v) opts r t).
    { destruct (complete_parts p _ _ _ _ _ num snd R' F Ec) as (P1 & P2 & P3). clear - Eb P1 P2 P3. destruct r; cbn [build asked] in *.
      - destruct (amount =? 0); [discriminate|]. destruct (addr_eqb dst ZERO_ADDR); [discriminate|]. destruct (negb (memo_ok (o_memo opts))); [discriminate|].
        injection Eb as <- <-. cbn in *. split; [exact P1|]. split; [now apply map_nil_inv in P2|exact P3].
      - destruct (existsb _ amounts); [discriminate|]. destruct (negb _ && negb _); [discriminate|]. injection Eb as <- <-. cbn in *.
        split; [rewrite P1; apply map_ext; now intros (?, ?)|]. split; [now apply map_nil_inv in P2|exact P3].
      - destruct (match contracts src with Some (CPubKey o) => Some _ | Some _ => None | None => Some _ end); [|discriminate].
        destruct (amount =? 0); [discriminate|]. destruct (addr_eqb dst ZERO_ADDR); [discriminate|]. destruct (negb (memo_ok (o_memo opts))); [discriminate|].
        injection Eb as <- <-. cbn in *. split; [exact P1|]. split; [now apply map_nil_inv in P2|exact P3].
      - destruct (negb valid); [discriminate|]. injection Eb as <- <-. cbn in *. split; [exact P1|]. split; [now apply map_nil_inv in P2|exact P3].
      - destruct user as [u|].
        + destruct (nth_error (w_addresses (v_wallet v)) u) as [a|] eqn:Eu; [|discriminate]. injection Eb as <- <-. cbn [with_parts t_outputs t_execute t_deploy] in *.
          split; [exact P1|]. split; [exact P3|]. apply one_op in P2. destruct P2 as (k & P2). exists (Some a), k. split; [exact P2|]. split; [|discriminate].
          intros i [= <-]. eauto.
        + injection Eb as <- <-. cbn [with_parts t_outputs t_execute t_deploy] in *. split; [exact P1|]. split; [exact P3|]. apply one_op in P2. destruct P2 as (k & P2).
          exists (o_user opts), k. split; [exact P2|]. split; [discriminate|reflexivity].
      - injection Eb as <- <-. cbn [with_parts t_outputs t_execute t_deploy] in *. split; [exact P1|]. split; [exact P3|]. apply one_op in P2. exact P2. }
    rewrite Ha, Hm in E. destruct (is_signed t) eqn:Es; [destruct (o_auto_send opts)|].
    - unfold send_off in E. destruct (accept t) eqn:Eacc.
      + destruct (o_mark_spent opts); injection E as <- <-; rewrite Es; cbn; (split; [exact A|]); (split; [split; [exact Eacc|]; split; [reflexivity|]; split; [reflexivity|];
          rewrite ?in_app_iff; cbn; auto|]); intros y; rewrite ?in_app_iff; cbn; intuition.
      + injection E as <- <-. auto.
    - destruct (validates t); [|injection E as <- <-; auto].
      destruct (o_mark_spent opts); injection E as <- <-; cbn; (split; [exact A|]); (split; [split; [reflexivity|]; split; [reflexivity|]; congruence|]); intros y;
        rewrite ?in_app_iff; cbn; intuition.
    - destruct (o_mark_spent opts); injection E as <- <-; rewrite Es, andb_false_r; cbn; (split; [exact A|]); (split; [split; [reflexivity|]; split; [reflexivity|]; congruence|]); intros y;
        rewrite ?in_app_iff; cbn; intuition.
  Qed.
End PROPS.

Print Assumptions C118_locked. Print Assumptions C118_unlock. Print Assumptions C118_states. Print Assumptions C118_restored. Print Assumptions C118_timeout.
Print Assumptions C119_accepted. Print Assumptions C119_valid. Print Assumptions C119_is_signed. Print Assumptions C119_fee. Print Assumptions C119_request.

(** Cases.  A toy account: the passphrase [9], two addresses; a signature is the message. *)
  Definition derive (p : bytes) (i : nat) : bytes * bytes := (p ++ [N.of_nat i], p ++ [N.of_nat i]).
  Definition get_addr (pk : bytes) : addr := pk.
  Definition sign (sk m : bytes) : bytes := sk ++ m.
  Definition verify (pk sg m : bytes) : bool := addr_eqb sg (pk ++ m).
  Definition finger_print (p : bytes) : bytes := p.
  Definition calc_hash (c : core) : bytes := [k_fee_ratio c; k_max_fee c; k_expires c; k_nonce c].
  Definition full_hash (t : txn) : bytes := t_id t.
  Definition cfg := mk_config true [9] 2.
  Definition A0 : addr := [9; 0]. Definition A1 : addr := [9; 1]. Definition X : addr := [5; 5]. Definition C : addr := [6; 6].
  Definition choose (t : txn) (o : options) : option (list N * list (addr * addr * N * option bytes) * option addr) :=
    Some (map in_amount (t_inputs t), match t_inputs t, t_outputs t with [], out :: _ => [(A1, out_contract out, out_amount out, None)] | _, _ => [] end, Some A0).
  Definition contracts (a : addr) : option contract := if addr_eqb a C then Some (CPubKey A1) else None.
  Definition complete := complete get_addr sign derive finger_print calc_hash full_hash (fun _ => 1000) (fun _ => 500) 7 [1] 1 cfg choose.
  Definition accepts := node_accepts_signatures get_addr verify contracts.
  Definition acts := acts get_addr sign derive finger_print calc_hash full_hash (fun _ => 1000) (fun _ => 500) 7 [1] 1 cfg choose contracts (fun _ => true) (fun _ => true) 600.
  Definition opts := mk_options true false 1024 5000000 200 None None None None None None [].
  Definition with_pass (p : bytes) := mk_options true false 1024 5000000 200 None None None (Some p) None None [].
  Definition start := mk_guard (mk_world (mk_wallet [A0; A1] [] []) [] [] []) None.
  Definition open_wallet : wallet := match unlock get_addr derive finger_print cfg (mk_wallet [A0; A1] [] []) [9] with Ret w => w | Throw => mk_wallet [] [] [] end.
  Lemma twins : no_twins get_addr derive.
  Proof. intros p q H i. unfold address_of, get_addr, derive in *. cbn in *. apply app_inj_tail in H. destruct H as (-> & _). reflexivity. Qed.
  Lemma signatures_correct : correct sign verify derive.
  Proof. intros p i m. unfold verify, sign, derive. cbn [fst snd]. now apply addr_eqb_eq. Qed.

  (** wrong passphrases fail; then the right one; then the timer locks; then a passphrase comes with the request *)
  Definition history := [(1, ASignMsg A0 [3]); (2, AUnlock [8]); (3, APerform (Send 10 X []) (with_pass [8])); (4, AUnlock [9]); (5, ASignMsg A0 [3]); (6, ASignMsg X [3]);
                         (700, ASignMsg A0 [3]); (800, APerform (Send 10 X []) (with_pass [9])); (801, ASignMsg A0 [3])].
  Example C118_case : match acts start history with
    | (g, [Failed; Failed; Failed; Done; Signature (Some _); Signature None; Failed; Signed _; Failed]) =>
      is_locked (v_wallet (g_world g)) = true /\ List.length (v_sent (g_world g)) = 1%nat
    | _ => False end.
  Proof. vm_compute. auto. Qed.
  Example C118_case_wrong : closed (v_wallet (g_world start)) /\ no_twins get_addr derive /\ c_with_passphrase cfg = true
    /\ ~ right get_addr derive finger_print cfg (w_addresses (v_wallet (g_world start))) [8] /\ right get_addr derive finger_print cfg (w_addresses (v_wallet (g_world start))) [9].
  Proof.
    split; [split; reflexivity|]. split; [exact twins|]. split; [reflexivity|]. split.
    - intros (H & _). specialize (H eq_refl). discriminate.
    - split; [reflexivity|]. intros a H. vm_compute in H. injection H as <-. reflexivity.
  Qed.
  (** the wallet is unlocked for a while *)
  Example C118_case_open : is_locked (v_wallet (g_world (expire (fst (acts start (firstn 6 history))) 600))) = false /\
    is_locked (v_wallet (g_world (expire (fst (acts start (firstn 6 history))) 604))) = true.
  Proof. vm_compute. auto. Qed.

  Lemma opened_case : opened get_addr derive cfg [9] open_wallet.
  Proof.
    assert (E : unlock get_addr derive finger_print cfg (mk_wallet [A0; A1] [] []) [9] = Ret open_wallet) by (vm_compute; reflexivity).
    apply (unlock_closed get_addr derive finger_print cfg (mk_wallet [A0; A1] [] []) [9]); [cbn; lia|split; reflexivity|exact E].
  Qed.
  Definition pay := with_parts 1 [] [mk_output X [] 10 None] [] None.
  Definition result (w : wallet) (t : txn) (o : options) : txn := match snd (complete w t o) with Ret t => t | Throw => empty_txn end.
  (** two signers, the sender and the owner of the input, and a user *)
  Definition call := with_parts 4 [] [mk_output X [] 10 None] [mk_op C [1] None (Some A1) NO_SOLUTION] None.
  Example C119_case : fresh call /\ complete open_wallet call opts = (open_wallet, Ret (result open_wallet call opts)) /\ accepts (result open_wallet call opts) = true
    /\ List.length (t_solutions (result open_wallet call opts)) = 2%nat.
  Proof. split; [split; [reflexivity|split; cbn; intros ? []; subst; auto; destruct H]|]. vm_compute. auto. Qed.
  (** from a contract, with its owner *)
  Definition from := with_parts 2 [mk_input C [] 10 None NO_SOLUTION 0] [mk_output X [] 10 None] [] None.
  Definition owned := mk_options true false 1024 5000000 200 None None None None None None [(C, A1)].
  Example C119_case_owner : accepts (result open_wallet from owned) = true /\ is_signed (result open_wallet from opts) = false.
  Proof. vm_compute. auto. Qed.

  (** A transaction that counts as signed need not be: is_signed looks at the inputs only.  A sender that is not the wallet's: *)
  Definition foreign := mk_options true false 1024 5000000 200 None None (Some X) None None None [].
  Theorem C119_sender_refuted : fresh pay /\ complete open_wallet pay foreign = (open_wallet, Ret (result open_wallet pay foreign))
    /\ is_signed (result open_wallet pay foreign) = true /\ accepts (result open_wallet pay foreign) = false.
  Proof. split; [split; [reflexivity|split; intros ? []]|]. vm_compute. auto. Qed.
  (** A transaction that was signed before and is completed again with a higher fee keeps the old signatures, which are worthless *)
  Definition dearer := mk_options true false 2048 5000000 200 None None None None None None [].
  Theorem C119_again_refuted : let t1 := result open_wallet pay opts in let t2 := result open_wallet t1 dearer in
    accepts t1 = true /\ complete open_wallet t1 dearer = (open_wallet, Ret t2) /\ is_signed t2 = true /\ accepts t2 = false.
  Proof. vm_compute. auto. Qed.
  (** Without enough gas the wallet makes transactions that the node refuses: the limit on the fee does not include the signatures *)
  Definition no_gas := mk_options true false 1024 0 200 None None None None None None [].
  Theorem C119_gas_refuted : let t := result open_wallet pay no_gas in
    accepts t = true /\ t_static_cost t = 2000 /\ cost_to_fee (t_static_cost t) (t_fee_ratio t) = Ret 2000 /\ t_max_fee t = 1000.
  Proof. vm_compute. auto. Qed.
  (** With a high fee ratio the limit on the fee wraps around *)
  Definition high := mk_options true false 879440 5000000 200 None None None None None None [].
  Theorem C119_wrap_refuted : let t := result open_wallet pay high in
    accepts t = true /\ cost_to_fee (t_static_cost t) (t_fee_ratio t) = Ret 1717656 /\ t_max_fee t < 1717656.
  Proof. vm_compute. auto. Qed.
Print Assumptions C119_sender_refuted. Print Assumptions C119_again_refuted. Print Assumptions C119_gas_refuted. Print Assumptions C119_wrap_refuted.
