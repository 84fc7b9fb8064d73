(** C105, C106: what the node tells about farmers and their blocks *)
Require Import List Arith NArith ZArith Bool Lia Sorted Permutation.
From Verif Require Import BytesLib OrdLib EngineModel CtrModel HistModel OfqModel FrkModel FrkSpec FrkProofs.
Import List ListNotations.
Open Scope N_scope.

(** heights are below 2^32 - 1 *)
Definition low (o : op) : Prop := match o with Apply b | Fail _ _ b => k_height_ b < 2 ^ 32 - 1 | _ => True end.

(** ** C105.  After blocks were applied, failed, were reverted, and the node was started again: the ranking has the numbers of blocks of the chain. *)
Theorem C105_ranking_partial sort l s : sorts sort -> Forall low l -> Forall no_late_failure l -> run sort start l = Some s -> ranks (chain_of l) (w_ranking s).
Proof.
  intros SO LO NF R. eapply ranks_of; eauto. eapply (run_inv sort SO true); eauto; [apply start_inv; auto|]. intros _. apply forallb_forall. intros o O. rewrite Forall_forall in NF. apply NF in O.
  destruct o as [b|[|] d b|d h|h]; auto.
Qed.
(** a limit cuts it, a negative one does not *)
Theorem C105_limit s limit : (limit < 2 ^ 31)%Z ->
  get_farmer_ranking s limit = if (limit <? 0)%Z then w_ranking s else firstn (Z.to_nat limit) (w_ranking s).
Proof. intros L. unfold get_farmer_ranking. destruct (Z.ltb_spec limit 0); auto. rewrite take_firstn. f_equal. lia. Qed.
(** After a start of the node the ranking is right whatever went wrong before, and has no farmer without blocks. *)
Theorem C105_restart sort l h s : sorts sort -> Forall low l -> run sort start (l ++ [Restart h]) = Some s ->
  ranks (chain_of (l ++ [Restart h])) (w_ranking s) /\ forall f n, In (f, n) (w_ranking s) -> 0 < n.
Proof.
  intros SO LO R. assert (SPLIT : forall l s0, run sort s0 (l ++ [Restart h]) = Some s -> exists s1, run sort s0 l = Some s1 /\ step sort s1 (Restart h) = Some s).
  { clear. induction l as [|o l IH]; intros s0 R; cbn [app run] in *; [exists s0; split; auto; destruct (step sort s0 (Restart h)); congruence|]. destruct (step sort s0 o); [auto|discriminate]. }
  destruct (SPLIT _ _ R) as (s1 & R1 & R2). pose proof (run_inv sort SO false l [] start s1 (start_inv false) LO ltac:(discriminate) R1) as V. unfold chain_of. rewrite fold_left_app. cbn [fold_left]. change (fold_left after l []) with (chain_of l) in *.
  cbn [step] in R2. injection R2 as <-. destruct (restart_inv sort SO _ _ _ h V) as (A & B). split; auto. now apply ranks_of.
Qed.

(** ** C106.  The blocks of farmers are those of the chain: the newest first up to a limit, all from the oldest on if it is negative; the summary adds them up. *)
Theorem C106_blocks_partial sort l s farmers since limit : sorts sort -> Forall low l -> run sort start l = Some s -> NoDup farmers -> (- 2 ^ 31 <= limit < 2 ^ 31)%Z ->
  let mine := filter (farmed_by farmers since) (chain_of l) in
  get_farmed_blocks s farmers since limit = map Some (if (0 <=? limit)%Z then firstn (Z.to_nat limit) mine else rev mine).
Proof.
  intros SO LO R ND LM. pose proof (run_inv sort SO false l [] start s (start_inv false) LO ltac:(discriminate) R) as V. fold (chain_of l) in V.
  destruct V as [V1 V2 V3 V4 _ _ _]. cbn zeta. apply (blocks_ok s (chain_of l)); auto. rewrite <- V1. now apply chained_holds.
Qed.
Theorem C106_summary_partial sort l s farmers since : sorts sort -> Forall low l -> run sort start l = Some s -> NoDup farmers ->
  let mine := filter (farmed_by farmers since) (chain_of l) in
  (forall b, In b mine -> k_reward b < 2 ^ 32) -> total mine < 2 ^ 64 -> summarizes mine (get_farmed_block_summary s farmers since).
Proof.
  intros SO LO R ND mine RW TT. pose proof (run_inv sort SO false l [] start s (start_inv false) LO ltac:(discriminate) R) as V. fold (chain_of l) in V.
  destruct V as [V1 V2 V3 V4 _ _ _]. apply (summary_ok s (chain_of l)); auto. rewrite <- V1. now apply chained_holds.
Qed.
(** the chain is newest first, each block one above the one before *)
Theorem C106_order sort l s : sorts sort -> Forall low l -> run sort start l = Some s -> StronglySorted (fun x y => k_height_ y < k_height_ x) (chain_of l).
Proof.
  intros SO LO R. pose proof (run_inv sort SO false l [] start s (start_inv false) LO ltac:(discriminate) R) as V. fold (chain_of l) in V. apply down_sorted. apply V.
Qed.
Print Assumptions C105_ranking_partial.
Print Assumptions C105_limit.
Print Assumptions C105_restart.
Print Assumptions C106_blocks_partial.
Print Assumptions C106_summary_partial.
Print Assumptions C106_order.

(** ** Cases *)
(** a function that sorts *)
Fixpoint ins (x : addr * N) (l : list (addr * N)) : list (addr * N) := match l with [] => [x] | y :: l => if snd y <=? snd x then x :: y :: l else y :: ins x l end.
Definition isort (l : list (addr * N)) : list (addr * N) := fold_right ins [] l.
Lemma ins_perm x l : Permutation (ins x l) (x :: l).
Proof. induction l as [|y l IH]; cbn [ins]; auto. destruct (snd y <=? snd x); auto. etransitivity; [apply perm_skip, IH|apply perm_swap]. Qed.
Lemma isort_sorts : sorts isort.
Proof.
  intros l. induction l as [|x l (P & S)]; cbn [isort fold_right]; [split; constructor|]. split.
  - symmetry. etransitivity; [apply ins_perm|]. now apply perm_skip, Permutation_sym.
  - fold (isort l). revert S. generalize (isort l). clear. induction 1 as [|y l S IH F]; cbn [ins]; [constructor; constructor|]. destruct (N.leb_spec (snd y) (snd x)).
    + constructor; [constructor; auto|]. constructor; auto. rewrite Forall_forall in *. intros z Z. specialize (F _ Z). lia.
    + constructor; auto. rewrite Forall_forall in *. intros z Z. apply (Permutation_in _ (ins_perm x l)) in Z. destruct Z as [<-|Z]; [lia|auto].
Qed.
Definition f1 : addr := [1]. Definition f2 : addr := [2]. Definition f3 : addr := [3].
Definition B (h : N) (f : addr) (r : N) : blk := mk_blk h f r (Some (7 :: f)).
Definition things : list op := [Apply (B 0 [] 0); Apply (B 1 f1 10); Apply (B 2 f2 20); Apply (B 3 f1 30); Apply (B 4 f3 40); Fail false true (B 5 f1 1); Revert false 4; Apply (B 4 f2 50); Apply (B 5 f1 60); Restart 6; Apply (B 6 f1 70)].
Example C105_case : (exists s, run isort start things = Some s /\ get_farmer_ranking s 1 = [(f1, 4)] /\ get_farmer_ranking s (-1) = [(f1, 4); (f2, 2)]) /\ Forall low things /\ Forall no_late_failure things /\ sorts isort.
Proof. split; [eexists; split; [vm_compute; reflexivity|split; vm_compute; reflexivity]|]. split; [repeat constructor|]. split; [repeat constructor|apply isort_sorts]. Qed.
Example C106_case : exists s, run isort start things = Some s /\ NoDup [f2; f1] /\
  get_farmed_blocks s [f2; f1] 2 3 = map Some [B 6 f1 70; B 5 f1 60; B 4 f2 50] /\ get_farmed_blocks s [f2] 0 (-1) = map Some [B 2 f2 20; B 4 f2 50] /\
  get_farmed_block_summary s [f2; f1] 3 = mk_summary 4 6 210 [(7 :: f1, 160); (7 :: f2, 50)].
Proof. eexists. split; [vm_compute; reflexivity|]. split; [repeat constructor; cbn; intuition discriminate|]. split; [vm_compute; reflexivity|]. split; vm_compute; reflexivity. Qed.

(** ** What is not so *)
(** A farmer whose blocks were all reverted stays in the ranking. *)
Theorem C105_zero_refuted : exists s, run isort start [Apply (B 0 [] 0); Apply (B 1 f1 1); Apply (B 2 f2 1); Revert false 2] = Some s /\ get_farmer_ranking s (-1) = [(f1, 1); (f2, 0)].
Proof. eexists. split; [vm_compute; reflexivity|vm_compute; reflexivity]. Qed.
(** When the block cannot be written, it is counted although it is not in the chain, and once more when it is applied. *)
Theorem C105_failure_refuted : exists s, run isort start [Apply (B 0 [] 0); Apply (B 1 f1 1); Fail true false (B 2 f2 1); Apply (B 2 f2 1)] = Some s /\ get_farmer_ranking s (-1) = [(f2, 2); (f1, 1)].
Proof. eexists. split; [vm_compute; reflexivity|vm_compute; reflexivity]. Qed.
(** Rewards of 2^32 or more are cut to 32 bits. *)
Theorem C106_reward_refuted : exists s, run isort start [Apply (B 0 [] 0); Apply (B 1 f1 (2 ^ 32 + 5))] = Some s /\ get_farmed_block_summary s [f1] 0 = mk_summary 1 1 5 [(7 :: f1, 5)].
Proof. eexists. split; [vm_compute; reflexivity|vm_compute; reflexivity]. Qed.
(** A key that is given twice counts twice. *)
Theorem C106_twice_refuted : exists s, run isort start [Apply (B 0 [] 0); Apply (B 1 f1 3)] = Some s /\
  get_farmed_block_summary s [f1; f1] 0 = mk_summary 2 1 6 [(7 :: f1, 6)] /\ get_farmed_blocks s [f1; f1] 0 5 = [Some (B 1 f1 3); Some (B 1 f1 3)].
Proof. eexists. split; [vm_compute; reflexivity|split; [vm_compute; reflexivity|vm_compute; reflexivity]]. Qed.
Print Assumptions C105_zero_refuted.
Print Assumptions C105_failure_refuted.
Print Assumptions C106_reward_refuted.
Print Assumptions C106_twice_refuted.
