(** C102: the liquidity of users in swaps, as the node reports it *)
Require Import List Arith NArith ZArith Bool Lia Sorted.
From Verif Require Import BytesLib OrdLib EngineModel EngineUpper CtrModel CtrSpec CtrProofs CtrProps SwapModel SwapSpec SwapProofs SwapProps LiqModel LiqSpec LiqProofs.
Import List ListNotations.
Open Scope N_scope.
Import Swap.

Lemma describe_keys w : forall m l, describe w m = Some l -> map fst l = map fst m.
Proof.
  induction m as [|(s, b) m IH]; intros l H; cbn [describe] in H; [now injection H as <-|]. destruct (w s) as [(v, bal)|]; [|discriminate]. destruct (describe w m) as [l'|]; [|discriminate]. injection H as <-.
  cbn. f_equal. now apply IH.
Qed.
Lemma sorted_nodup (l : list addr) : StronglySorted (klt bytescmp) l -> NoDup l.
Proof. induction 1 as [|x l S IH F]; constructor; auto. intros IN. rewrite Forall_forall in F. apply F in IN. now apply (klt_irrefl bytescmp_total) in IN. Qed.
Lemma total_zero i v l : (forall a, In a l -> at2 i (liquidity v a) mod 2 ^ 128 = 0) -> total i v l < 2 ^ 128 -> total i v l = 0.
Proof.
  induction l as [|a l IH]; intros H B; cbn [total fold_right] in *; auto. fold (total i v l) in *. assert (E : at2 i (liquidity v a) = 0).
  { specialize (H a (or_introl eq_refl)). rewrite N.mod_small in H; auto. remember (2 ^ 128) as m. lia. }
  rewrite E in *. rewrite N.add_0_l in *. apply IH; auto. intros b IN. apply H. now right.
Qed.

(** ** C102.  Whatever happens on the chain: for addresses none of which switched pools, called a swap from within a contract or the transaction that deploys it, or left out the
    optional argument of rem_all_liquid, the query is answered and gives for every swap the sum of what the contract has for them, of both tokens; a swap that is not in the answer has nothing for them. *)
Theorem C102_liquidity_partial : forall steps w r l, run genesis steps = Some (w, r) -> formed steps -> plain_users l steps -> NoDup l ->
  exists res, get_swap_liquidity_by (w, r) l = Some res /\ NoDup (map fst res) /\
    (forall s x, In (s, x) res -> w s <> None) /\
    forall s v bal, w s = Some (v, bal) -> s <> ones -> (forall i, total i v l < 2 ^ 128) ->
      entry_of s res ((fst (tokens v), total false v l), (snd (tokens v), total true v l)) \/
      ((forall x, ~ entry_of s res x) /\ total false v l = 0 /\ total true v l = 0).
Proof.
  intros steps w r l H F P ND. apply (J_run l) in H as JX; auto; [|apply J_genesis]. destruct JX as (S & V & R). cbn [fst snd] in *.
  assert (SC : asorted bytescmp (collect r l)) by now apply collect_sorted.
  assert (DW : forall s b, In (s, b) (collect r l) -> w s <> None).
  { intros s b IN E. apply collect_source in IN as [(b' & [])|(a & b' & IA & IN)]; auto; [|constructor]. specialize (R a s IA). rewrite E in R.
    pose proof (proj1 (aget_None pair_total _ S) R) as NI. eapply NI; eauto. }
  destruct (describe_some w (collect r l) DW) as (res & E). exists res. unfold get_swap_liquidity_by. cbn [fst snd]. split; [exact E|].
  split; [rewrite (describe_keys _ _ _ E); now apply sorted_nodup|]. split.
  - intros s x IN. assert (IK : In s (map fst (collect r l))) by (rewrite <- (describe_keys _ _ _ E); apply in_map_iff; exists (s, x); auto).
    apply in_map_iff in IK as ((s', b) & <- & IK). cbn [fst]. eapply DW; eauto.
  - intros s v bal WS NO TB. destruct (V _ _ _ WS) as (_ & IA).
    pose proof (proj2 (collect_spec r s S IA NO l [] (SSorted_nil _))) as EC. fold (collect r l) in EC. cbn [aget] in EC.
    destruct (sums_total r s v l None) as [(E1 & _ & NI)|(b & E1 & T)].
    + intros a IN. specialize (R a s IN). now rewrite WS in R.
    + right. split; [|split; apply total_zero; auto; intros a IN; specialize (R a s IN); rewrite WS in R; unfold recd in R; rewrite NI in R by auto; rewrite <- at2_mod2, <- R; reflexivity].
      intros x IN. assert (IK : In s (map fst (collect r l))) by (rewrite <- (describe_keys _ _ _ E); apply in_map_iff; exists (s, x); auto).
      apply in_map_iff in IK as ((s', b) & <- & IK). cbn [fst] in *. apply (aget_In bytescmp_total) in IK; auto. refine (_ (eq_trans (eq_sym EC) IK)). rewrite E1. discriminate.
    + left. assert (BE : b = (total false v l, total true v l)).
      { assert (BI : forall i, at2 i b = total i v l).
        { intros i. destruct (T i) as (T1 & T2). cbn [dflt] in T1. assert (Z0 : at2 i (0, 0) = 0) by now destruct i. cbn [dflt] in T2. rewrite Z0 in *. rewrite N.add_0_l in T1.
          rewrite (N.mod_small (total i v l)) in T1 by auto. rewrite <- T1. symmetry. apply N.mod_small. apply T2. reflexivity. }
        destruct b as (x, y). f_equal; [exact (BI false)|exact (BI true)]. }
      apply (describe_In w s _ _ E). split; [|exists v, bal; split; auto; now destruct (tokens v)]. apply (aget_In bytescmp_total); auto. rewrite <- BE. exact (eq_trans EC E1).
Qed.
Print Assumptions C102_liquidity_partial.

(** ** Cases *)
Definition sA : addr := repeat 101 32.
Definition sB : addr := repeat 102 32.
Definition call (s : addr) (a : addr) (h : N) (d : option (addr * N)) (m : method) : step := Exec (mk_op s Named true (mk_env (Some a) h d s 1) m).
Definition day : list step :=
  [Deploy sA tA tB; call sA alice 10 (Some (tA, 1000000)) (AddLiquid false 1); call sA bob 11 (Some (tB, 500000)) (AddLiquid true 1);
   call sA carol 12 (Some (tB, 10000)) (Trade true carol (Some 19000) 4); Deploy sB tB tA; call sB alice 13 (Some (tA, 777)) (AddLiquid true 0);
   Pay sA tA 5; call sA alice 9001 None (RemLiquid false 400000 false)].
Definition after (l : list step) : world * records := match run genesis l with Some x => x | None => genesis end.
Lemma forms l : forallb (fun st => match st with
    | Deploy s _ _ => (List.length s =? 32)%nat && forallb (fun b => b <? 256) s
    | Exec o => match e_deposit (o_env o) with Some (_, n) => n <? 2 ^ 128 | None => true end
    | _ => true end) l = true -> formed l.
Proof.
  rewrite forallb_forall. intros H. split.
  - intros s t c IN. apply H in IN. apply andb_true_iff in IN as (A & B). split; [now apply Nat.eqb_eq|]. apply Forall_forall. intros x IX. rewrite forallb_forall in B. now apply N.ltb_lt, B.
  - intros o cur n IN D. apply H in IN. rewrite D in IN. now apply N.ltb_lt.
Qed.
Lemma plains A l : forallb (fun st => match st with
    | Exec o => match o_via o with Named => true | _ => false end && match o_method o with SwitchPool _ => false | RemAllLiquid _ => o_arg o | _ => true end
    | _ => true end) l = true -> plain_users A l.
Proof.
  rewrite forallb_forall. intros H o a IN _ _. apply H in IN. apply andb_true_iff in IN as (B & C). split; [now destruct (o_via o)|]. split; [intros n E|intros dry E]; rewrite E in C; auto. discriminate.
Qed.
Example C102_case : exists w r, run genesis day = Some (w, r) /\ formed day /\ plain_users [alice; bob] day /\
  get_swap_liquidity_by (w, r) [alice; bob] = Some [(sA, ((tA, 600000), (tB, 500000))); (sB, ((tB, 0), (tA, 777)))] /\
  get_swap_liquidity_by (w, r) [alice] = Some [(sA, ((tA, 600000), (tB, 0))); (sB, ((tB, 0), (tA, 777)))] /\ get_swap_liquidity_by (w, r) [carol] = Some [].
Proof.
  destruct (run genesis day) as [(w, r)|] eqn:E; [|vm_compute in E; discriminate]. exists w, r. split; [reflexivity|]. split; [apply forms; reflexivity|]. split.
  - apply plains. reflexivity.
  - assert (Q : (w, r) = after day) by (unfold after; now rewrite E). rewrite Q. vm_compute. repeat split.
Qed.

(** ** What is reported is not what the contract has in each of the excluded cases.
    Alice, after the trade above, moves to another pool (her million has become 980390 and 10000 of the other token) and takes all of the latter out: the node says that she has
    almost 2^128 of it, and the million she does not have any more. *)
Definition switched : list step := firstn 4 day ++ [call sA alice 9001 None (SwitchPool 2); call sA alice 20000 None (RemLiquid true 10000 false)].
Theorem C102_switch_refuted : exists w r v bal, run genesis switched = Some (w, r) /\ formed switched /\ w sA = Some (v, bal) /\ liquidity v alice = (980390, 0) /\
  get_swap_liquidity_by (w, r) [alice] = Some [(sA, ((tA, 1000000), (tB, 2 ^ 128 - 10000)))].
Proof.
  destruct (run genesis switched) as [(w, r)|] eqn:E; [|vm_compute in E; discriminate]. assert (Q : (w, r) = after switched) by (unfold after; now rewrite E).
  destruct (w sA) as [(v, bal)|] eqn:WS; [|assert (QN : fst (after switched) sA = None) by (rewrite <- Q; exact WS); vm_compute in QN; discriminate].
  exists w, r, v, bal. split; [reflexivity|]. split; [apply forms; reflexivity|]. split; [exact WS|]. split; [|rewrite Q; vm_compute; reflexivity].
  assert (QV : match fst (after switched) sA with Some (v, _) => liquidity v alice | None => (0, 0) end = (980390, 0)) by (vm_compute; reflexivity). rewrite <- Q in QV. cbn [fst] in QV. now rewrite WS in QV.
Qed.
Print Assumptions C102_switch_refuted.
(** rem_all_liquid without an argument takes everything out; the node goes on to report it *)
Definition unargued : list step := firstn 4 day ++ [Exec (mk_op sA Named false (mk_env (Some alice) 9001 None sA 1) (RemAllLiquid false))].
Theorem C102_no_argument_refuted : exists w r v bal, run genesis unargued = Some (w, r) /\ formed unargued /\ w sA = Some (v, bal) /\ liquidity v alice = (0, 0) /\
  get_swap_liquidity_by (w, r) [alice] = Some [(sA, ((tA, 1000000), (tB, 0)))].
Proof.
  destruct (run genesis unargued) as [(w, r)|] eqn:E; [|vm_compute in E; discriminate]. assert (Q : (w, r) = after unargued) by (unfold after; now rewrite E).
  destruct (w sA) as [(v, bal)|] eqn:WS; [|assert (QN : fst (after unargued) sA = None) by (rewrite <- Q; exact WS); vm_compute in QN; discriminate].
  exists w, r, v, bal. split; [reflexivity|]. split; [apply forms; reflexivity|]. split; [exact WS|]. split; [|rewrite Q; vm_compute; reflexivity].
  assert (QV : match fst (after unargued) sA with Some (v, _) => liquidity v alice | None => (1, 1) end = (0, 0)) by (vm_compute; reflexivity). rewrite <- Q in QV. cbn [fst] in QV. now rewrite WS in QV.
Qed.
Print Assumptions C102_no_argument_refuted.
(** liquidity that is added in the transaction that deploys the swap makes the query fail, for ever, together with everything else the address has *)
Definition in_one : list step := [Deploy sA tA tB; Exec (mk_op sA Fresh true (mk_env (Some alice) 10 (Some (tA, 1000000)) sA 1) (AddLiquid false 1))].
Theorem C102_same_transaction_refuted : exists w r v bal, run genesis in_one = Some (w, r) /\ formed in_one /\ w sA = Some (v, bal) /\ liquidity v alice = (1000000, 0) /\
  get_swap_liquidity_by (w, r) [alice] = None /\
  (forall x r2, run (w, r) (skipn 4 day) = Some (x, r2) -> get_swap_liquidity_by (x, r2) [alice] = None) /\ run (w, r) (skipn 4 (firstn 6 day)) <> None.
Proof.
  destruct (run genesis in_one) as [(w, r)|] eqn:E; [|vm_compute in E; discriminate]. assert (Q : (w, r) = after in_one) by (unfold after; now rewrite E).
  destruct (w sA) as [(v, bal)|] eqn:WS; [|assert (QN : fst (after in_one) sA = None) by (rewrite <- Q; exact WS); vm_compute in QN; discriminate].
  exists w, r, v, bal. split; [reflexivity|]. split; [apply forms; reflexivity|]. split; [exact WS|]. split.
  - assert (QV : match fst (after in_one) sA with Some (v, _) => liquidity v alice | None => (1, 1) end = (1000000, 0)) by (vm_compute; reflexivity). rewrite <- Q in QV. cbn [fst] in QV. now rewrite WS in QV.
  - split; [rewrite Q; vm_compute; reflexivity|]. rewrite Q. split; [|vm_compute; discriminate]. intros x r2 R.
    assert (QX : (x, r2) = match run (after in_one) (skipn 4 day) with Some y => y | None => genesis end) by now rewrite R. rewrite QX. vm_compute. reflexivity.
Qed.
Print Assumptions C102_same_transaction_refuted.
(** an address that is given twice counts twice *)
Theorem C102_twice_refuted : exists w r, run genesis day = Some (w, r) /\ plain_users [alice] day /\
  get_swap_liquidity_by (w, r) [alice; alice] = Some [(sA, ((tA, 1200000), (tB, 0))); (sB, ((tB, 0), (tA, 1554)))].
Proof.
  destruct C102_case as (w & r & E & _ & P & _). exists w, r. split; [exact E|]. split; [intros o a IN U IA; eapply P; eauto; destruct IA as [<-|[]]; now left|].
  assert (Q : (w, r) = after day) by (unfold after; now rewrite E). rewrite Q. vm_compute. reflexivity.
Qed.
Print Assumptions C102_twice_refuted.
