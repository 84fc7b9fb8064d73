(** C124: transactions by id.  [is_valid]: any check of blocks; [sound]: the blocks of the history pass it and have different hashes. *)
Require Import List Arith NArith Bool Lia.
From Verif Require Import PrsModel PrsProofs FrmModel FrmProofs QtxModel QtxSpec QtxProofs.
Import ListNotations.
Open Scope N_scope.

(** Every history has exactly one chain *)
Theorem C124_chain : forall l, exists! ch, chain l ch.
Proof. intros l. destruct (chain_ex l) as [ch C]. exists ch. split; [easy|]. intros ch' D. now apply (chain_fun l). Qed.
Print Assumptions C124_chain.

Section USE.
  Variables (is_valid : block -> list txn -> bool) (l : list event) (ch : list block).
  Hypotheses (S : sound is_valid l) (C : chain l ch).
  Lemma use_rep : rep (file (run is_valid l)) ch (cur (run is_valid l)) /\ wf ch.
  Proof. destruct (run_inv is_valid (blocks l) l ch S (fun b H => H) C) as [V [_ W]]. split; [now apply vr_cur|easy]. Qed.
  Lemma use_index id : match get id (tx_index (cur (run is_valid l))) with
    | Some p => exists b t, In b ch /\ In t (k_txs b) /\ t_id t = id /\ x_height p = k_height b /\ x_time p = k_time b /\ nth_error (file (run is_valid l)) (x_offset p) = Some (Tx t)
    | None => forall b t, In b ch -> In t (k_txs b) -> t_id t <> id
    end.
  Proof.
    destruct use_rep as [[R1 R2 _ _] W]. destruct (get id _) as [p|] eqn:E; [now apply R1|]. intros b t B T <-. now apply (R2 b t B T).
  Qed.
End USE.

(** A transaction is found exactly if it is in a block of the chain, and it is the one that is there: also after the chain was changed, blocks were stored that are not in it, and writing was interrupted *)
Theorem C124_transaction : forall is_valid l ch, sound is_valid l -> chain l ch -> forall pool queue id t,
  get_transaction (run is_valid l) pool queue id false = Some t <-> t_id t = id /\ exists b, In b ch /\ In t (k_txs b).
Proof.
  intros iv l ch S C pool queue id t. pose proof (use_index iv l ch S C id) as U. destruct (use_rep iv l ch S C) as [_ W]. cbn [get_transaction]. unfold stored.
  destruct (get id (tx_index _)) as [p|].
  - destruct U as [b [u [U1 [U2 [U3 [_ [_ U4]]]]]]]. rewrite U4. split.
    + intros [= <-]. split; [easy|]. now exists b.
    + intros [E [c [C1 C2]]]. f_equal. apply (wf_unique ch W b c u t); try easy. congruence.
  - split; [discriminate|]. intros [E [b [B1 B2]]]. now destruct (U b t B1 B2).
Qed.
Print Assumptions C124_transaction.

(** With pending transactions: first the pool, then the queue, then the chain *)
Theorem C124_pending : forall is_valid l ch, sound is_valid l -> chain l ch -> forall pool queue id, (forall i t, In (i, t) pool -> t_id t = i) ->
  match get_transaction (run is_valid l) pool queue id true with
  | Some t => t_id t = id /\ (In (id, t) pool \/ (~ In id (map fst pool) /\ In (Some t) queue) \/
      (~ In id (map fst pool) /\ (forall q, In (Some q) queue -> t_id q <> id) /\ exists b, In b ch /\ In t (k_txs b)))
  | None => ~ In id (map fst pool) /\ (forall q, In (Some q) queue -> t_id q <> id) /\ forall b t, In b ch -> In t (k_txs b) -> t_id t <> id
  end.
Proof.
  intros iv l ch S C pool queue id P. pose proof (C124_transaction iv l ch S C pool queue id) as T. cbn [get_transaction] in *. destruct (get id pool) as [t|] eqn:E.
  - apply get_in in E. split; [now apply P|now left].
  - apply get_none in E. destruct (find _ queue) as [q|] eqn:F.
    + apply find_some in F. destruct F as [F1 F2]. destruct q as [q|]; [|discriminate]. apply N.eqb_eq in F2. split; [easy|]. right. now left.
    + assert (Q : forall q, In (Some q) queue -> t_id q <> id). { intros q I A. apply (find_none _ _ F) in I. cbn in I. apply N.eqb_neq in I. easy. }
      destruct (stored (run iv l) id) as [t|] eqn:G.
      * destruct (proj1 (T t) eq_refl) as [T1 T2]. split; [easy|]. right. now right.
      * split; [easy|]. split; [easy|]. intros b t B1 B2 A. assert (H : None = Some t) by (apply T; split; [easy|now exists b]). discriminate.
Qed.
Print Assumptions C124_pending.

(** Height, time and block of a transaction are those of the block of the chain it is in *)
Theorem C124_block : forall is_valid l ch, sound is_valid l -> chain l ch -> forall id,
  (forall h, get_tx_height (run is_valid l) id = Some h <-> exists b, In b ch /\ In id (ids b) /\ k_height b = h) /\
  (forall h t x, get_tx_block (run is_valid l) id = Some (h, t, x) <-> exists b, In b ch /\ In id (ids b) /\ h = k_height b /\ t = k_time b /\ x = Some (k_hash b)).
Proof.
  intros iv l ch S C id. pose proof (use_index iv l ch S C id) as U. destruct (use_rep iv l ch S C) as [R W].
  assert (Q : forall b c t, In b ch -> In c ch -> In t (k_txs b) -> t_id t = id -> In id (ids c) -> b = c).
  { intros b c t B D T E I. apply in_map_iff in I. destruct I as [u [U1 U2]]. apply (wf_unique ch W b c t u); try easy. congruence. }
  unfold get_tx_height, get_tx_block, get_block_hash. destruct (get id (tx_index _)) as [p|].
  - destruct U as [b [u [U1 [U2 [U3 [U5 [U6 U4]]]]]]]. assert (I : In id (ids b)) by (rewrite <- U3; now apply in_map). split.
    + intros h. cbn. rewrite U5. split; [intros [= <-]; now exists b|]. intros [c [C1 [C2 <-]]]. now rewrite (Q b c u).
    + intros h t x. rewrite U5, U6. destruct R as [_ _ _ R4]. rewrite R4, (get_hash ch b W U1). split.
      * intros [= <- <- <-]. now exists b.
      * intros [c [C1 [C2 [-> [-> ->]]]]]. now rewrite (Q b c u).
  - assert (N : forall b, In b ch -> ~ In id (ids b)). { intros b B I. apply in_map_iff in I. destruct I as [u [U1 U2]]. now apply (U b u). }
    split; [intros h|intros h t x]; (split; [discriminate|]); intros [b [B1 [B2 _]]]; now apply N in B2.
Qed.
Print Assumptions C124_block.

(** The ids at a height, since a height, and the last ones: those of the chain.  The last come block by block from the end, in a block from the beginning. *)
Theorem C124_ids : forall is_valid l ch, sound is_valid l -> chain l ch ->
  (forall h, get_tx_ids_at (run is_valid l) h = match nth_error ch (N.to_nat h) with Some b => ids b | None => [] end) /\
  (forall h, get_tx_ids_since (run is_valid l) h = concat (map ids (skipn (N.to_nat h) ch))) /\
  (forall limit, get_tx_ids (run is_valid l) limit = firstn limit (concat (map ids (rev ch)))).
Proof.
  intros iv l ch S C. destruct (use_rep iv l ch S C) as [[_ _ R _] W]. split; [|split].
  - intros h. unfold get_tx_ids_at. rewrite R. now apply get_log.
  - intros h. unfold get_tx_ids_since. rewrite R, log_since, log_concat, since_skip; easy.
  - intros limit. unfold get_tx_ids. rewrite R, log_rev, scan_ok by (cbn; lia). cbn [app]. now rewrite log_concat.
Qed.
Print Assumptions C124_ids.

(** What is in the chain is found at every later time until a revert below its height *)
Theorem C124_stays : forall is_valid l m pool queue id t h, sound is_valid (l ++ m) ->
  get_transaction (run is_valid l) pool queue id false = Some t -> get_tx_height (run is_valid l) id = Some h ->
  (forall r, In (Revert r) m \/ (exists j, In (Crash r j) m) -> h < N.of_nat r) ->
  get_transaction (run is_valid (l ++ m)) pool queue id false = Some t /\ get_tx_height (run is_valid (l ++ m)) id = Some h.
Proof.
  intros iv l m pool queue id t h S A B K.
  assert (S1 : forall k, sound iv (l ++ k) -> sound iv l). { intros k [S1 S2]. rewrite blocks_app in *. split; intros; [apply S1|apply S2]; try easy; apply in_app_iff; now left. }
  destruct (chain_ex l) as [ch C]. apply (C124_transaction iv l ch (S1 m S) C) in A. apply (C124_block iv l ch (S1 m S) C) in B. destruct A as [A1 [b [A2 A3]]], B as [b' [B1 [B2 B3]]].
  assert (b' = b). { apply in_map_iff in B2. destruct B2 as [u [U1 U2]]. apply (wf_unique ch (chain_wf l ch C) b' b u t); try easy. congruence. } subst b'.
  assert (G : forall k, (forall r, In (Revert r) k \/ (exists j, In (Crash r j) k) -> h < N.of_nat r) -> exists ch', chain (l ++ k) ch' /\ In b ch').
  { induction k as [|e k IH] using rev_ind; intros H; [exists ch; now rewrite app_nil_r|]. destruct IH as [c [C1 C2]].
    { intros r [R|[j R]]; apply H; [left|right; exists j]; apply in_app_iff; now left. }
    rewrite app_assoc. assert (F : forall r, h < N.of_nat r -> In b (firstn r c)).
    { intros r R. apply In_nth_error in C2. destruct C2 as [i C2]. pose proof (wf_height c (chain_wf _ _ C1) i b C2) as Hi. apply (nth_error_In _ i).
      rewrite <- (firstn_skipn r c) in C2. rewrite nth_error_app1 in C2; [easy|]. rewrite firstn_length. assert (i < length c)%nat by (rewrite <- (firstn_skipn r c); apply nth_error_Some; congruence). lia. }
    destruct e as [x|x|r|r j].
    - destruct (next_dec c x) as [O|O]; [exists (c ++ [x]); split; [now apply ch_add|apply in_app_iff; now left]|exists c; split; [now apply ch_not|easy]].
    - exists c. split; [now apply ch_side|easy].
    - exists (firstn r c). split; [now apply ch_revert|]. apply F, H. left. apply in_app_iff. right. now left.
    - exists (firstn r c). split; [now apply ch_crash|]. apply F, H. right. exists j. apply in_app_iff. right. now left. }
  destruct (G m K) as [c [C1 C2]]. split.
  - apply (C124_transaction iv _ c S C1). split; [easy|]. now exists b.
  - apply (C124_block iv _ c S C1). exists b. split; [easy|]. split; [easy|]. exact B3.
Qed.
Print Assumptions C124_stays.

(** Case: two chains; transaction 11 is in a block of each, at different heights; the block of the first chain is applied again after a crash that left garbage *)
Definition g0 : block := mk_block 100 0 5 0 [].
Definition a1 : block := mk_block 101 1 6 0 [mk_txn 10 1; mk_txn 11 2].
Definition b1 : block := mk_block 201 1 6 0 [mk_txn 12 3].
Definition b2 : block := mk_block 202 2 7 0 [mk_txn 11 2].
Definition ex : list event := [Apply g0; Apply a1; Side b1; Apply a1; Revert 1; Apply b1; Apply b2; Crash 1 [Head b2; Tx (mk_txn 11 9); Junk]; Apply a1].
Definition ok_block (b : block) (l : list txn) : bool := true.
Example C124_sound_ex : sound ok_block ex.
Proof. split; [easy|]. intros a b A B. cbn in A, B. repeat (destruct A as [<-|A]; [repeat (destruct B as [<-|B]; [easy|]); easy|]). easy. Qed.
Example C124_chain_ex : chain ex [g0; a1].
Proof.
  assert (H1 : next_ok [] g0). { repeat split; try constructor; cbn; tauto. }
  assert (H2 : next_ok [g0] a1). { split; [easy|]. split; [repeat constructor; cbn; intuition discriminate|]. cbn. intros t T [c [[<-|[]] X]]. easy. }
  assert (H3 : ~ next_ok [g0; a1] a1). { intros [H _]. discriminate. }
  assert (H4 : next_ok [g0] b1). { split; [easy|]. split; [repeat constructor; cbn; intuition discriminate|]. cbn. intros t T [c [[<-|[]] X]]. easy. }
  assert (H5 : next_ok [g0; b1] b2). { split; [easy|]. split; [repeat constructor; cbn; intuition discriminate|]. cbn. intros t [<-|[]] [c [[<-|[<-|[]]] X]]; cbn in X; intuition discriminate. }
  change ex with (((((((([] ++ [Apply g0]) ++ [Apply a1]) ++ [Side b1]) ++ [Apply a1]) ++ [Revert 1]) ++ [Apply b1]) ++ [Apply b2] ++ [Crash 1 [Head b2; Tx (mk_txn 11 9); Junk]] ++ [Apply a1])).
  rewrite !app_assoc. change [g0; a1] with (firstn 1 [g0; b1; b2] ++ [a1]). apply ch_add; [|exact H2]. apply ch_crash. change [g0; b1; b2] with (([g0] ++ [b1]) ++ [b2]). apply ch_add; [|exact H5]. apply ch_add; [|exact H4].
  change [g0] with (firstn 1 [g0; a1]). apply ch_revert. apply ch_not; [|exact H3]. apply ch_side. change [g0; a1] with (([] ++ [g0]) ++ [a1]). apply ch_add; [|exact H2]. apply ch_add; [constructor|exact H1].
Qed.
Example C124_ex : let n := run ok_block ex in get_transaction n [] [] 11 false = Some (mk_txn 11 2) /\ get_tx_height n 11 = Some 1 /\ get_transaction n [] [] 12 false = None /\
  get_tx_ids_since n 0 = [10; 11] /\ get_tx_ids n 1 = [10] /\ get_tx_block n 10 = Some (1, 6, Some 101).
Proof. vm_compute. repeat split. Qed.
