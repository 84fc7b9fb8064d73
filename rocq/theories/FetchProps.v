(** C76: blocks for a height are taken from enough peers; C77: a fetched block is the one asked for *)
Require Import List Arith NArith Bool Lia.
Require Import Verif.FetchModel Verif.FetchSpec Verif.FetchProofs Verif.FetchOneProofs.
Import ListNotations.
Open Scope N_scope.

(** every block handed over is valid on its own *)
Theorem C76_valid : forall min_sync_peers fetch_timeout now pick next synced l bl tr b,
  run min_sync_peers fetch_timeout now pick next synced l = (Finished bl, tr) -> List.In b bl -> k_ok b = true.
Proof.
  intros. apply run_blocks in H. destruct H as (j & H & -> & _). apply in_map_iff in H0 as [[k b'] [E Y]]. cbn in E. subst b'. apply H in Y. tauto.
Qed.
Print Assumptions C76_valid.

(** what is missing: with fewer than [min_sync_peers] peers that are not honest the block should be found; proved for fewer than half as many, and only when nobody replies in place of another (nothing in the code checks it) *)
Theorem C76_partial : forall min_sync_peers fetch_timeout now pick next synced l bl tr b bad,
  run min_sync_peers fetch_timeout now pick next synced l = (Finished bl, tr) ->
  from_asked tr -> k_ok b = true -> (forall c, ~ List.In c bad -> honest b tr c) -> (2 * length bad < min_sync_peers)%nat ->
  exists b', List.In b' bl /\ k_content b' = k_content b /\ k_ok b' = true.
Proof.
  intros min_sync_peers fetch_timeout now pick next synced l bl tr b bad R FA OK HO SZ.
  pose proof (run_blocks _ _ _ _ _ _ _ _ _ R) as RB.
  pose proof (run_inv _ _ bad b _ _ _ _ _ _ _ R OK FA HO) as (j & nx & V & E & C).
  assert (W : exists c, List.In c (j_succ j) /\ ~ List.In c bad).
  { assert (L1 : (length (j_failed j) <= length bad)%nat).
    { apply NoDup_incl_length; [apply (v_nf _ _ _ _ _ V)|]. intros c Hc. destruct (in_dec N.eq_dec c bad) as [Y|Y]; [exact Y|]. exfalso. exact (v_failed _ _ _ _ _ V c Y Hc). }
    destruct (Forall_Exists_dec (fun c => List.In c bad) (fun c => in_dec N.eq_dec c bad) (j_succ j)) as [F|F].
    - exfalso. assert (L2 : (length (j_succ j) <= length bad)%nat).
      { apply NoDup_incl_length; [apply (v_ns _ _ _ _ _ V)|]. intros c Hc. rewrite Forall_forall in F. auto. }
      lia.
    - apply Exists_exists in F as [c [Y Z]]. exists c. auto. }
  destruct W as [c [Y Z]]. destruct (v_succ _ _ _ _ _ V c Z Y) as [b' B'].
  exists b'. split; [subst bl; apply in_map_iff; exists (k_content b, b'); auto|].
  destruct (v_blk _ _ _ _ _ V _ _ B') as [X1 X2]. auto.
Qed.
Print Assumptions C76_partial.

(** what is missing: each of [min_sync_peers] counted replies should come from another peer; proved that no peer is counted more than twice *)
Theorem C76_enough_partial : forall min_sync_peers fetch_timeout now pick next synced l bl tr peers,
  run min_sync_peers fetch_timeout now pick next synced l = (Finished bl, tr) ->
  from_asked tr -> (forall c, replied tr c -> List.In c peers) -> (min_sync_peers <= 2 * length peers)%nat.
Proof.
  intros min_sync_peers fetch_timeout now pick next synced l bl tr peers R FA RP.
  pose proof (run_inv _ _ peers (mk_block 0 0 0 true) _ _ _ _ _ _ _ R eq_refl FA) as V.
  destruct V as (j & nx & V & E & C).
  - intros c Hc pre id q rest r now' pick' ET _. exfalso. apply Hc, RP. exists id, r, now', pick'. rewrite ET. apply in_or_app. cbn. auto.
  - assert (L1 : (length (j_failed j) <= length peers)%nat) by (apply NoDup_incl_length; [apply (v_nf _ _ _ _ _ V)|]; intros c Hc; apply RP, (v_rep _ _ _ _ _ V); auto).
    assert (L2 : (length (j_succ j) <= length peers)%nat) by (apply NoDup_incl_length; [apply (v_ns _ _ _ _ _ V)|]; intros c Hc; apply RP, (v_rep _ _ _ _ _ V); auto).
    lia.
Qed.
Print Assumptions C76_enough_partial.

(** a way to show the hypotheses for a given run *)
Fixpoint each (P : list obs -> N -> N -> reply -> Prop) (seen tr : list obs) : Prop :=
  match tr with
  | [] => True
  | o :: t => match o with In (EvReply from id r _ _) => P seen from id r | _ => True end /\ each P (seen ++ [o]) t
  end.
Lemma each_split P a from id r now pick b seen : each P seen (a ++ In (EvReply from id r now pick) :: b) -> P (seen ++ a) from id r.
Proof.
  revert seen. induction a as [|o a IH]; intros seen H; cbn in H.
  - rewrite app_nil_r. apply H.
  - destruct H as [_ H]. apply IH in H. rewrite <- app_assoc in H. exact H.
Qed.
Lemma each_asked tr : each (fun seen from id _ => forall c q, List.In (Out c id q) seen -> c = from) [] tr -> from_asked tr.
Proof. intros H a from id r now pick b c q -> Y. apply each_split in H. eapply H. exact Y. Qed.
Lemma each_honest x bad tr : each (fun seen from id r => ~ List.In from bad -> forall q, List.In (Out from id q) seen -> truthful x q r) [] tr ->
  forall c, ~ List.In c bad -> honest x tr c.
Proof. intros H c Hc pre id q rest r now pick -> Y. apply each_split in H. eapply H; eauto. Qed.

Definition first_of (l : list N) (n : nat) : list N := firstn n l.
Definition right : block := mk_block 50 51 7 true.
Definition fake : block := mk_block 60 61 7 true.
Definition right_hash := RHash (Some (50, 51)).
Definition fake_hash := RHash (Some (60, 61)).

Ltac solve_each := vm_compute; repeat split; intros;
  repeat match goal with
  | H : _ \/ _ |- _ => destruct H
  | H : Out _ _ _ = Out _ _ _ |- _ => inversion H; clear H; subst
  | H : In _ = Out _ _ _ |- _ => discriminate H
  | H : False |- _ => contradiction
  end; try reflexivity; try (exfalso; tauto); try (unfold truthful; auto; fail).

(** four peers, one of which says that there is no such block *)
Example C76_case :
  let l := [EvReply 4 13 (RHash None) 0 first_of; EvReply 1 10 right_hash 0 first_of; EvReply 2 11 right_hash 0 first_of; EvOther 5; EvReply 1 14 (RBlock (Some right)) 0 first_of] in
  exists tr, run 3 8000 0 first_of 10 [1; 2; 3; 4] l = (Finished [right], tr) /\ from_asked tr /\ (forall c, ~ List.In c [4] -> honest right tr c) /\
    (forall c, replied tr c -> List.In c [1; 2; 4]).
Proof.
  eexists. split; [vm_compute; reflexivity|]. split; [|split].
  - apply each_asked. solve_each.
  - apply each_honest. solve_each.
  - intros c (id & r & now & pick & H). cbn in H. repeat (destruct H as [H|H]; [try discriminate; inversion H; subst; cbn; auto|]). contradiction.
Qed.

(** it does not hold for [min_sync_peers] in general: one peer that is asked twice (it said that it is not synced, and then that it is) is counted twice *)
Theorem C76_refuted_twice : exists l tr,
  run 2 8000 0 first_of 0 [1; 2] l = (Finished [fake], tr) /\ from_asked tr /\ (forall c, ~ List.In c [1] -> honest right tr c) /\
  (forall c, replied tr c -> c = 1).
Proof.
  exists [EvLost 1; EvUpdate false 0 first_of; EvSynced 1; EvUpdate false 0 first_of; EvReply 1 0 fake_hash 0 first_of; EvReply 1 2 (RHash None) 0 first_of;
          EvReply 1 3 (RBlock (Some fake)) 0 first_of].
  eexists. split; [vm_compute; reflexivity|]. split; [|split].
  - apply each_asked. solve_each.
  - apply each_honest. solve_each.
  - intros c (id & r & now & pick & H). cbn in H. repeat (destruct H as [H|H]; [try discriminate; inversion H; subst; cbn; auto|]). contradiction.
Qed.
Print Assumptions C76_refuted_twice.
(** nor when three are needed and two work together: one of them is counted as failed and, once the other delivers, as having succeeded *)
Theorem C76_refuted_two : exists l tr,
  run 3 8000 0 first_of 0 [1; 2; 3; 4] l = (Finished [fake], tr) /\ from_asked tr /\ (forall c, ~ List.In c [1; 2] -> honest right tr c) /\
  (forall c, ~ List.In (In (EvLost c)) tr).
Proof.
  exists [EvReply 1 0 fake_hash 0 first_of; EvReply 1 4 (RBlock None) 0 first_of; EvReply 2 1 fake_hash 2000 first_of; EvReply 2 5 (RBlock (Some fake)) 2000 first_of].
  eexists. split; [vm_compute; reflexivity|]. split; [|split].
  - apply each_asked. solve_each.
  - apply each_honest. solve_each.
  - intros c H. cbn in H. repeat (destruct H as [H|H]; [discriminate|]). contradiction.
Qed.
Print Assumptions C76_refuted_two.
(** nor when a peer replies to a request that was sent to another: nothing compares them *)
Theorem C76_refuted_forged : exists l tr,
  run 2 8000 0 first_of 0 [1; 2] l = (Finished [], tr) /\ (forall c, ~ List.In c [1] -> honest right tr c) /\ (forall c, replied tr c -> c = 1).
Proof.
  exists [EvReply 1 0 (RHash None) 0 first_of; EvReply 1 1 (RHash None) 0 first_of].
  eexists. split; [vm_compute; reflexivity|]. split.
  - apply each_honest. solve_each.
  - intros c (id & r & now & pick & H). cbn in H. repeat (destruct H as [H|H]; [try discriminate; inversion H; subst; cbn; auto|]). contradiction.
Qed.
Print Assumptions C76_refuted_forged.

(** ** C77 *)
(** the block that is handed over came in reply to one of the requests for it *)
Theorem C77_source : forall min_sync_peers hash pick next synced l b tr,
  f_run min_sync_peers hash pick next synced l = (FDone (Some b), tr) -> from_asked tr -> exists c, replied_with tr c b.
Proof. intros. apply f_run_inv in H; auto. Qed.
Print Assumptions C77_source.

(** there is no block only when all peers that are synced replied that they have none *)
Theorem C77_none : forall min_sync_peers hash pick next synced l e j n sy tr tr',
  f_run min_sync_peers hash pick next synced l = (FBusy j n sy, tr) ->
  f_run min_sync_peers hash pick next synced (l ++ [e]) = (FDone None, tr') -> from_asked tr' ->
  forall c, List.In c (synced_after synced (l ++ [e])) -> replied_without tr' c.
Proof.
  intros min_sync_peers hash pick next synced l e j n sy tr tr' R R' FA.
  destruct (f_step min_sync_peers (FBusy j n sy) e) as [s1 o1] eqn:S1.
  pose proof (f_run_snoc _ _ _ _ _ _ _ _ _ _ _ R S1) as R2. rewrite R' in R2. inversion R2; subst s1 tr'.
  assert (FA1 : from_asked tr).
  { intros a from id r now' pick' b c q E Y. eapply (FA a from id r now' pick'). rewrite E, <- app_assoc. cbn. reflexivity. exact Y. }
  pose proof (f_run_inv _ _ _ _ _ _ _ _ R FA1) as V.
  destruct (f_step_inv _ hash _ _ _ _ _ _ (outs o1) _ eq_refl FA V S1) as [_ X].
  intros c Hc. replace (tr ++ In e :: outs o1) with ((tr ++ [In e]) ++ outs o1) by (rewrite <- app_assoc; reflexivity).
  apply without_more. apply X; eauto. unfold synced_after in Hc |- *. rewrite fold_left_app in Hc. exact Hc.
Qed.
Print Assumptions C77_none.
Theorem C77_none_start : forall min_sync_peers hash pick next synced tr,
  f_run min_sync_peers hash pick next synced [] = (FDone None, tr) -> synced = [].
Proof.
  intros min_sync_peers hash pick next synced tr. unfold f_run, f_go_on. cbn [f_failed f_pending f_hash f_req filter]. intros H.
  destruct synced as [|c l]; [reflexivity|]. exfalso. cbn [mem existsb negb andb filter length] in H.
  destruct (0 <? min_sync_peers)%nat; [|cbn in H; discriminate H].
  match type of H with context [fold_left f_ask ?a ?b] => destruct (fold_left f_ask a b) as [[? ?] ?] end. cbn in H. discriminate H.
Qed.
Print Assumptions C77_none_start.

(** what is missing: the hash of the block is not compared with the hash asked for; it is right only when every block that is sent is *)
Theorem C77_partial : forall min_sync_peers hash pick next synced l b tr,
  f_run min_sync_peers hash pick next synced l = (FDone (Some b), tr) -> from_asked tr ->
  (forall c x, replied_with tr c x -> k_hash x = hash) -> k_hash b = hash.
Proof. intros. destruct (C77_source _ _ _ _ _ _ _ _ H H0) as [c Y]. eauto. Qed.
Print Assumptions C77_partial.
Theorem C77_refuted : exists l tr, f_run 2 50 first_of 0 [1; 2] l = (FDone (Some (mk_block 60 61 7 false)), tr) /\ from_asked tr.
Proof.
  exists [EvReply 2 1 (RBlock (Some (mk_block 60 61 7 false))) 0 first_of]. eexists. split; [vm_compute; reflexivity|]. apply each_asked. solve_each.
Qed.
Print Assumptions C77_refuted.
Example C77_case :
  let l := [EvReply 1 0 (RBlock None) 0 first_of; EvLost 3] in
  exists j n sy tr tr', f_run 2 50 first_of 0 [1; 2; 3] l = (FBusy j n sy, tr) /\
    f_run 2 50 first_of 0 [1; 2; 3] (l ++ [EvReply 2 1 RError 0 first_of]) = (FDone None, tr') /\ from_asked tr' /\ synced_after [1; 2; 3] (l ++ [EvReply 2 1 RError 0 first_of]) = [1; 2].
Proof.
  do 5 eexists. split; [vm_compute; reflexivity|]. split; [vm_compute; reflexivity|]. split; [|reflexivity]. apply each_asked. solve_each.
Qed.
Example C77_case_found :
  exists tr, f_run 2 50 first_of 0 [1; 2; 3] [EvReply 2 1 (RBlock None) 0 first_of; EvReply 3 2 (RBlock (Some right)) 0 first_of] = (FDone (Some right), tr) /\ from_asked tr.
Proof. eexists. split; [vm_compute; reflexivity|]. apply each_asked. solve_each. Qed.
