(** C41, C62, C63: the transactions that wait for a block *)
Require Import List Arith NArith Bool Lia Permutation Sorted.
From Verif Require Import BytesLib EngineModel EngineUpper TxModel PoolModel PoolSpec PoolProofs.
Import ListNotations.
Open Scope N_scope.

(** ** C41.  Whatever was added, replaced and removed: the total the node keeps for a sender is the sum of the fees of the sender's transactions in the pool ... *)
Theorem C41_fee_accounting : forall memo_key U p, ids_ok U -> reached memo_key U p ->
  NoDup (map fst (pl_txs p)) /\
  forall a, match lfind addr_eqb a (pl_fees p) with Some v => v | None => 0 end = fees_from a (entries p).
Proof.
  intros mk U p IDS R. pose proof (reached_ok mk U p IDS R) as OK. split; [exact (po_nodup _ _ _ OK)|]. exact (po_fees _ _ _ OK).
Qed.
Print Assumptions C41_fee_accounting.

(** ... and a transaction is admitted exactly if its fee and the fees of all other waiting transactions of its sender can be paid from the balance, or if this
    check is switched off; it replaces an earlier version of itself, and no other transaction is touched. *)
Theorem C41_admission : forall memo_key U p e force balance s p' b, ids_ok U -> reached memo_key U p -> N.of_nat (length (pl_txs p)) < 2 ^ 32 ->
  op_ok U (PUpdate e force balance) -> t_sender (pe_tx e) = Some s ->
  pool_update memo_key e force balance p = Some (p', b) ->
  let id := t_id (pe_tx e) in
  let others := fees_from s (map snd (filter (fun x => negb (addr_eqb id (fst x))) (pl_txs p))) in
  (b = true <-> force = true \/ others + pe_fee e <= balance) /\
  (b = false -> p' = p) /\
  (b = true -> In (id, e) (pl_txs p') /\ fees_from s (entries p') = others + pe_fee e /\
               forall id' x, id' <> id -> (In (id', x) (pl_txs p') <-> In (id', x) (pl_txs p))).
Proof.
  intros mk U p e force balance s p' b IDS R SM OP SE E. cbv zeta. pose proof (reached_ok mk U p IDS R) as OK.
  fold (del addr_eqb (t_id (pe_tx e)) (pl_txs p)). fold (others (t_id (pe_tx e)) s p). destruct OP as (UE & RE & FE).
  assert (B : others (t_id (pe_tx e)) s p + pe_fee e < M64).
  { assert (F : fees_from s (e :: map snd (del addr_eqb (t_id (pe_tx e)) (pl_txs p))) < M64).
    { apply fees_small.
      - intros x [<-|I]; auto. apply in_map_iff in I as ((i, y) & <- & I). apply (del_In _ addr_eqb_spec) in I as (I & _). now destruct (po_entry _ _ _ OK i y I) as (_ & _ & _ & _ & ?).
      - cbn [length]. rewrite map_length. pose proof (del_length (t_id (pe_tx e)) (pl_txs p)). unfold M32. lia. }
    rewrite fees_cons in F. unfold from in F. rewrite SE, addr_eqb_refl in F. unfold others. lia. }
  pose proof (update_total mk U e p s OK IDS UE SE FE B) as T.
  pose proof E as E'. unfold pool_update in E. destruct (pe_skipped e); [discriminate|]. rewrite SE in E. cbv zeta in E. fold (recorded p s) in E. fold M64 in E.
  rewrite T in E. destruct (N.ltb_spec balance (others (t_id (pe_tx e)) s p + pe_fee e)) as [L|L]; destruct force; cbn [negb andb] in E.
  all: injection E as EP EB; subst p' b.
  2: { split; [|split; [auto|discriminate]]. split; [discriminate|]. intros [H|H]; [discriminate|lia]. }
  all: split; [split; auto|split; [discriminate|]]; intros _; split; [now left|]; split.
  1, 3, 5: unfold entries; cbn [pl_txs put map snd]; rewrite fees_cons; unfold from; rewrite SE, addr_eqb_refl; unfold others; apply N.add_comm.
  all: intros id' x NE; cbn [pl_txs]; split; [intros [I|I]; [injection I as <- _; congruence|apply (del_In _ addr_eqb_spec) in I as (I & _); exact I]|].
  all: intros I; right; apply (del_In _ addr_eqb_spec); split; auto.
Qed.
Print Assumptions C41_admission.

(** ** C62.  The pending part of the history of some addresses shows an input or output exactly if a transaction in the pool has it and it belongs to one of them. *)
Definition io_of (S : list addr) (p : pool) (x : pend) : Prop :=
  exists id e, In (id, e) (pl_txs p) /\
    ((exists i, In i (t_inputs (pe_tx e)) /\ In (ti_address i) S /\ x = PSpend id i) \/ (exists o, In o (t_outputs (pe_tx e)) /\ In (to_address o) S /\ x = PReceive id o)).
Lemma among_In S a : among S a = true <-> In a S.
Proof.
  unfold among. rewrite existsb_exists. split; [intros (x & I & E); destruct (addr_eqb_spec a x); [subst; auto|discriminate]|]. intros I. exists a. split; auto. apply addr_eqb_refl.
Qed.
Lemma pending_In k p t : In t (pending k p) <-> exists id, In ((k, id), t) (pl_index p).
Proof.
  unfold pending. rewrite in_map_iff. split.
  - intros (((k', id), t') & <- & I). apply filter_In in I as (I & E). cbn [fst] in E. destruct (addr_eqb_spec k' k); [subst; eauto|discriminate].
  - intros (id & I). exists ((k, id), t). split; auto. apply filter_In. split; auto. cbn [fst]. apply addr_eqb_refl.
Qed.
Lemma show_same S t t' : t_id t = t_id t' -> t_inputs t = t_inputs t' -> t_outputs t = t_outputs t' -> t_result t = None -> t_result t' = None -> show S t = show S t'.
Proof. intros E1 E2 E3 R R'. unfold show, get_inputs, get_outputs. now rewrite E1, E2, E3, R, R'. Qed.
Lemma show_In S t x : t_result t = None -> In x (show S t) <->
  (exists i, In i (t_inputs t) /\ In (ti_address i) S /\ x = PSpend (t_id t) i) \/ (exists o, In o (t_outputs t) /\ In (to_address o) S /\ x = PReceive (t_id t) o).
Proof.
  intros R. unfold show, get_inputs, get_outputs. rewrite R, !app_nil_r, in_app_iff, !in_map_iff. split.
  - intros [(i & <- & I)|(o & <- & I)]; apply filter_In in I as (I & A); apply among_In in A; [left; exists i|right; exists o]; auto.
  - intros [(i & I & A & ->)|(o & I & A & ->)]; apply among_In in A; [left; exists i|right; exists o]; split; auto; apply filter_In; auto.
Qed.
Lemma keys_in memo_key t a : t_result t = None -> concerns t a -> In a (index_keys memo_key t).
Proof.
  intros R [I|I]; unfold index_keys, get_inputs, get_outputs; rewrite R, !app_nil_r; apply in_or_app; [now left|right].
  apply in_map_iff in I as (o & <- & I). apply in_flat_map. exists o. split; auto. now left.
Qed.
Theorem C62_pending_history : forall memo_key U p S x, ids_ok U -> reached memo_key U p ->
  In x (pending_history S p) <-> io_of S p x.
Proof.
  intros mk U p S x IDS R. pose proof (reached_ok mk U p IDS R) as OK. unfold pending_history. rewrite in_flat_map. split.
  - intros (a & IA & IX). apply in_flat_map in IX as (t & IT & IX). apply pending_In in IT as (id & IT). destruct (po_index _ _ _ OK _ _ _ IT) as (ID & UT & RT & e & IE & _).
    destruct (po_entry _ _ _ OK _ _ IE) as (ID' & UE & _ & RE & _). destruct (IDS t (pe_tx e) UT UE) as (_ & E1 & E2); [congruence|].
    exists id, e. split; auto. rewrite (show_same S t (pe_tx e)) in IX by congruence. apply show_In in IX; auto. now rewrite ID' in IX.
  - intros (id & e & IE & H). destruct (po_entry _ _ _ OK _ _ IE) as (ID & UE & _ & RE & _).
    assert (A : exists a, In a S /\ concerns (pe_tx e) a).
    { destruct H as [(i & I & J & _)|(o & I & J & _)]; [exists (ti_address i)|exists (to_address o)]; split; auto; [left|right]; now apply in_map. }
    destruct A as (a & IA & CA). exists a. split; auto. destruct (po_index' _ _ _ OK id e a IE (keys_in mk _ _ RE CA)) as (t & IT).
    destruct (po_index _ _ _ OK _ _ _ IT) as (ID' & UT & RT & _). destruct (IDS t (pe_tx e) UT UE) as (_ & E1 & E2); [congruence|].
    apply in_flat_map. exists t. split; [apply pending_In; eauto|]. rewrite (show_same S t (pe_tx e)) by congruence. apply show_In; auto. now rewrite ID.
Qed.
Print Assumptions C62_pending_history.
(** For one address every such input and output is shown once, in the order of the transaction: what is missing for several addresses is refuted below. *)
Definition of_tx (id : addr) (x : pend) : bool := addr_eqb id (match x with PSpend i _ => i | PReceive i _ => i end).
Theorem C62_shown_once_partial : forall memo_key U p a id e, ids_ok U -> reached memo_key U p -> In (id, e) (pl_txs p) ->
  filter (of_tx id) (pending_history [a] p) =
  map (PSpend id) (filter (fun i => addr_eqb (ti_address i) a) (t_inputs (pe_tx e))) ++
  map (PReceive id) (filter (fun o => addr_eqb (to_address o) a) (t_outputs (pe_tx e))).
Proof.
  intros mk U p a id e IDS R IE. pose proof (reached_ok mk U p IDS R) as OK. destruct (po_entry _ _ _ OK _ _ IE) as (ID & UE & _ & RE & _).
  assert (AM : forall b, among [a] b = addr_eqb b a) by (intros b; unfold among; cbn [existsb]; apply orb_false_r).
  assert (SH : show [a] (pe_tx e) = map (PSpend id) (filter (fun i => addr_eqb (ti_address i) a) (t_inputs (pe_tx e))) ++
    map (PReceive id) (filter (fun o => addr_eqb (to_address o) a) (t_outputs (pe_tx e)))).
  { unfold show, get_inputs, get_outputs. rewrite RE, !app_nil_r, ID. f_equal; f_equal; apply filter_ext; intros z; apply AM. }
  rewrite <- SH. unfold pending_history, pending. cbn [flat_map]. rewrite app_nil_r.
  assert (IDX : forall k i t, In ((k, i), t) (pl_index p) -> t_id t = i /\ (i = id -> show [a] t = show [a] (pe_tx e))).
  { intros k i t IT. destruct (po_index _ _ _ OK _ _ _ IT) as (ID' & UT & RT & _). split; auto. intros ->. destruct (IDS t (pe_tx e) UT UE) as (_ & E1 & E2); [congruence|].
    apply show_same; congruence. }
  assert (ALL : forall t, filter (of_tx id) (show [a] t) = if addr_eqb id (t_id t) then show [a] t else []).
  { intros t. unfold show. rewrite filter_app. destruct (addr_eqb_spec id (t_id t)) as [<-|NE].
    - f_equal; [generalize (filter (fun i => among [a] (ti_address i)) (get_inputs t)) as l|generalize (filter (fun i => among [a] (to_address i)) (get_outputs t)) as l];
        induction l as [|z l IH]; cbn [map filter]; auto; unfold of_tx at 1; rewrite addr_eqb_refl; f_equal; exact IH.
    - replace (@nil pend) with (@nil pend ++ []) at 1 by reflexivity.
      f_equal; [generalize (filter (fun i => among [a] (ti_address i)) (get_inputs t)) as l|generalize (filter (fun i => among [a] (to_address i)) (get_outputs t)) as l];
        induction l as [|z l IH]; cbn [map filter]; auto; unfold of_tx at 1; destruct (addr_eqb_spec id (t_id t)); congruence. }
  assert (HAS : In a (index_keys mk (pe_tx e)) -> exists t, In ((a, id), t) (pl_index p)) by (intros K; exact (po_index' _ _ _ OK id e a IE K)).
  assert (NOT : show [a] (pe_tx e) <> [] -> exists t, In ((a, id), t) (pl_index p)).
  { intros NE. apply HAS. destruct (show [a] (pe_tx e)) as [|z l] eqn:SE; [congruence|]. apply keys_in; auto.
    assert (I : In z (show [a] (pe_tx e))) by (rewrite SE; now left). apply show_In in I; auto.
    destruct I as [(i & I & [J|[]] & _)|(o & I & [J|[]] & _)]; [left|right]; rewrite J; now apply in_map. }
  pose proof (po_inodup _ _ _ OK) as ND. clear HAS SH AM. revert IDX ND NOT. generalize (pl_index p) as ix. induction ix as [|((k, i), t) ix IH]; intros IDX ND NOT.
  - cbn. destruct (show [a] (pe_tx e)); auto. destruct NOT as (? & []). discriminate.
  - cbn [map fst] in ND. apply NoDup_cons_iff in ND as (N1 & ND). cbn [filter map snd fst]. destruct (addr_eqb_spec k a) as [->|NK].
    + cbn [map flat_map snd]. rewrite filter_app, ALL. destruct (IDX a i t (or_introl eq_refl)) as (-> & SAME). destruct (addr_eqb_spec id i) as [<-|NI].
      * rewrite SAME by reflexivity. replace (filter (of_tx id) (flat_map (show [a]) (map snd (filter (fun e0 => addr_eqb (fst (fst e0)) a) ix)))) with (@nil pend); [apply app_nil_r|].
        assert (OUT : forall t', ~ In ((a, id), t') ix) by (intros t' I; apply N1; apply in_map_iff; exists ((a, id), t'); auto).
        clear - OUT ALL IDX. assert (IDX' : forall k i t, In ((k, i), t) ix -> t_id t = i) by (intros ? ? ? I; now destruct (IDX _ _ _ (or_intror I))). clear IDX.
        induction ix as [|((k, i), t') ix IH]; auto. cbn [filter fst]. destruct (addr_eqb_spec k a) as [->|].
        -- cbn [map flat_map snd]. rewrite filter_app, ALL, (IDX' a i t' (or_introl eq_refl)). destruct (addr_eqb_spec id i) as [<-|]; [edestruct OUT; now left|].
           apply IH; [intros t'' I; eapply OUT; right; eauto|intros ? ? ? I; eapply IDX'; right; eauto].
        -- apply IH; [intros t'' I; eapply OUT; right; eauto|intros ? ? ? I; eapply IDX'; right; eauto].
      * cbn [app]. apply IH; auto; [intros ? ? ? I; eapply IDX; right; eauto|]. intros NE. destruct (NOT NE) as (t' & [I|I]); [congruence|eauto].
    + apply IH; auto; [intros ? ? ? I; eapply IDX; right; eauto|]. intros NE. destruct (NOT NE) as (t' & [I|I]); [congruence|eauto].
Qed.
Print Assumptions C62_shown_once_partial.

(** ** C63.  What remains after the pool was purged: a part of it, which has its size below the limit, and no sender with more fees than balance ... *)
Theorem C63_purge : forall memo_key U size balance max_size p l ratio, ids_ok U -> reached memo_key U p -> Permutation (entries p) l ->
  let p' := fst (purge memo_key size balance max_size l 0 (fun _ => 0) ratio p) in
  incl (entries p') (entries p) /\
  fold_right (fun e s => size (pe_tx e) + s) 0 (entries p') <= max_size /\
  (forall a, fees_from a (entries p') <= balance a) /\
  (forall a, match lfind addr_eqb a (pl_fees p') with Some v => v | None => 0 end = fees_from a (entries p')).
Proof.
  intros mk U size balance mx p l ratio IDS R PM. cbv zeta. destruct (purge mk size balance mx l 0 (fun _ => 0) ratio p) as (p', r) eqn:E. cbn [fst].
  pose proof (reached_ok mk U p IDS R) as OK.
  destruct (purge_ok mk size balance mx U l IDS 0 (fun _ => 0) ratio p p' r [] OK) as (OK' & H1 & H2 & H3); cbn; auto; try lia. split; auto. split; [exact H1|]. split; auto. exact (po_fees _ _ _ OK').
Qed.
Print Assumptions C63_purge.
(** ... nothing is removed if everything fits ... *)
Theorem C63_nothing_removed : forall memo_key size balance max_size p l ratio, Permutation (entries p) l ->
  fold_right (fun e s => size (pe_tx e) + s) 0 (entries p) <= max_size -> (forall a, fees_from a (entries p) <= balance a) -> (forall a, balance a < 2 ^ 64) ->
  fst (purge memo_key size balance max_size l 0 (fun _ => 0) ratio p) = p.
Proof.
  intros mk size balance mx p l ratio PM S F B. apply purge_none.
  - rewrite N.add_0_l. fold (sizes size (entries p)) in S. now rewrite (sizes_perm size _ _ PM) in S.
  - intros a. rewrite N.add_0_l, N.mod_small by apply B. specialize (F a). now rewrite (fees_perm a _ _ PM) in F.
Qed.
Print Assumptions C63_nothing_removed.
(** ... and otherwise those with the lowest fee ratio go, apart from the transactions of senders who can not pay all their fees. *)
Lemma erase_txs memo_key id p : pl_txs (pool_erase memo_key id p) = del addr_eqb id (pl_txs p).
Proof.
  unfold pool_erase. destruct (lfind addr_eqb id (pl_txs p)) eqn:F; [reflexivity|]. symmetry. apply del_out. intros v. eapply (find_none _ addr_eqb_spec); eauto.
Qed.
Section CHEAP.
  Variable memo_key : addr -> bytes -> addr.
  Variables (size : tx -> N) (balance : addr -> N) (max_size : N).
  Notation purge := (purge memo_key size balance max_size).
  Lemma purge_sub l : forall total fees ratio p x, In x (pl_txs (fst (purge l total fees ratio p))) -> In x (pl_txs p).
  Proof.
    induction l as [|e l IH]; intros total fees ratio p x; cbn [PoolModel.purge]; auto. cbv zeta.
    match goal with |- context [if ?c then PoolModel.purge _ _ _ _ _ _ _ _ _ else _] => destruct c end; intros I; apply IH in I; auto.
    rewrite erase_txs in I. now apply (del_In _ addr_eqb_spec) in I as (I & _).
  Qed.
  Lemma purge_keep l : forall total fees ratio p id e, In (id, e) (pl_txs p) -> (forall x, In x l -> t_id (pe_tx x) <> id) -> In (id, e) (pl_txs (fst (purge l total fees ratio p))).
  Proof.
    induction l as [|h l IH]; intros total fees ratio p id e I N; cbn [PoolModel.purge]; auto. cbv zeta.
    match goal with |- context [if ?c then PoolModel.purge _ _ _ _ _ _ _ _ _ else _] => destruct c end; apply IH; try (intros x J; apply N; now right); auto.
    rewrite erase_txs. apply (del_In _ addr_eqb_spec). split; auto. cbn [fst]. intros ->. now apply (N h (or_introl eq_refl)).
  Qed.
  Lemma purge_full l : forall total fees ratio p x id, max_size < total -> In x l -> t_id (pe_tx x) = id -> ~ In id (map fst (pl_txs (fst (purge l total fees ratio p)))).
  Proof.
    induction l as [|h l IH]; intros total fees ratio p x id L I E; cbn [PoolModel.purge]; [destruct I|]. cbv zeta.
    set (fees' := match t_sender (pe_tx h) with Some s => _ | None => fees end). set (over := match t_sender (pe_tx h) with Some s => _ | None => false end).
    assert (L' : max_size < (if over then total else total + size (pe_tx h))) by (destruct over; lia).
    destruct (N.ltb_spec max_size (if over then total else total + size (pe_tx h))); [|lia]. cbn [orb]. destruct I as [<-|I]; [|eapply IH; eauto].
    intros J. apply in_map_iff in J as ((id', y) & EQ & J). apply purge_sub in J. rewrite erase_txs in J. apply (del_In _ addr_eqb_spec) in J as (_ & J). cbn [fst] in *. congruence.
  Qed.
  Lemma purge_cheap l : forall total fees ratio p,
    StronglySorted (fun x y => t_ratio (pe_tx y) <= t_ratio (pe_tx x)) l -> NoDup (map (fun x => t_id (pe_tx x)) l) -> (forall x, In x l -> In (t_id (pe_tx x), x) (pl_txs p)) ->
    let p' := fst (purge l total fees ratio p) in
    forall e x s, In e l -> t_sender (pe_tx e) = Some s -> fees s + fees_from s l <= balance s mod 2 ^ 64 -> ~ In (t_id (pe_tx e), e) (pl_txs p') ->
    In x l -> In (t_id (pe_tx x)) (map fst (pl_txs p')) -> t_ratio (pe_tx e) <= t_ratio (pe_tx x).
  Proof.
    induction l as [|h l IH]; intros total fees ratio p SS ND SUB; cbv zeta; intros e x s IE SE B NE IX JX; [destruct IE|].
    inversion SS as [|? ? SS' HD]; subst. cbn [map] in ND. apply NoDup_cons_iff in ND as (N1 & ND). cbn [PoolModel.purge] in NE, JX. cbv zeta in NE, JX.
    set (fees' := match t_sender (pe_tx h) with Some s => fun a => if addr_eqb a s then fees s + pe_fee h else fees a | None => fees end) in *.
    set (over := match t_sender (pe_tx h) with Some s => balance s mod 2 ^ 64 <? fees' s | None => false end) in *. set (total' := if over then total else total + size (pe_tx h)) in *.
    assert (B' : fees' s + fees_from s l <= balance s mod 2 ^ 64).
    { rewrite fees_cons in B. unfold fees', from in *. destruct (t_sender (pe_tx h)) as [s'|]; [|lia]. destruct (addr_eqb_spec s s') as [->|]; [rewrite addr_eqb_refl in B; lia|].
      destruct (addr_eqb_spec s' s); [congruence|lia]. }
    assert (SUB' : forall y, In y l -> In (t_id (pe_tx y), y) (pl_txs (pool_erase memo_key (t_id (pe_tx h)) p))).
    { intros y IY. rewrite erase_txs. apply (del_In _ addr_eqb_spec). split; [apply SUB; now right|]. cbn [fst]. intros EQ. apply N1. rewrite <- EQ. apply in_map_iff. eauto. }
    destruct (N.ltb_spec max_size total') as [L|L]; cbn [orb] in NE, JX.
    - (* full: everything that follows is removed as well *)
      exfalso. destruct IX as [<-|IX].
      + apply in_map_iff in JX as ((i, y) & EQ & JX). apply purge_sub in JX. rewrite erase_txs in JX. apply (del_In _ addr_eqb_spec) in JX as (_ & JX). cbn [fst] in *. congruence.
      + eapply purge_full in JX; eauto.
    - destruct over eqn:OV.
      + (* the sender of [h] has no money left *)
        assert (EH : e <> h).
        { intros ->. unfold over in OV. rewrite SE in OV. apply N.ltb_lt in OV. lia. }
        destruct IE as [->|IE]; [congruence|]. destruct IX as [<-|IX]; [|eapply IH; eauto].
        apply in_map_iff in JX as ((i, y) & EQ & JX). apply purge_sub in JX. rewrite erase_txs in JX. apply (del_In _ addr_eqb_spec) in JX as (_ & JX). cbn [fst] in *. congruence.
      + destruct IE as [<-|IE].
        * exfalso. apply NE. apply purge_keep; [apply SUB; now left|]. intros y IY EQ. apply N1. rewrite <- EQ. apply in_map_iff. eauto.
        * destruct IX as [<-|IX]; [rewrite Forall_forall in HD; auto|]. eapply (IH total' fees' (t_ratio (pe_tx h)) p); eauto. intros y IY. apply SUB. now right.
  Qed.
End CHEAP.
Theorem C63_cheapest_removed : forall memo_key U size balance max_size p l ratio, ids_ok U -> reached memo_key U p -> Permutation (entries p) l ->
  StronglySorted (fun x y => t_ratio (pe_tx y) <= t_ratio (pe_tx x)) l ->
  let p' := fst (purge memo_key size balance max_size l 0 (fun _ => 0) ratio p) in
  forall removed kept s, In removed (entries p) -> ~ In removed (entries p') -> In kept (entries p') ->
  t_sender (pe_tx removed) = Some s -> fees_from s (entries p) <= balance s mod 2 ^ 64 ->
  t_ratio (pe_tx removed) <= t_ratio (pe_tx kept).
Proof.
  intros mk U size balance mx p l ratio IDS R PM SS. cbv zeta. intros e x s IE NE IX SE B. pose proof (reached_ok mk U p IDS R) as OK.
  assert (KEY : forall y, In y (entries p) -> In (t_id (pe_tx y), y) (pl_txs p)).
  { intros y I. unfold entries in I. apply in_map_iff in I as ((i, z) & <- & I). cbn [snd]. destruct (po_entry _ _ _ OK i z I) as (-> & _). exact I. }
  eapply (purge_cheap mk size balance mx l 0 (fun _ => 0) ratio p SS) with (s := s).
  - eapply Permutation_NoDup; [apply Permutation_map; exact PM|]. unfold entries. rewrite map_map.
    replace (map (fun x => t_id (pe_tx (snd x))) (pl_txs p)) with (map fst (pl_txs p)); [exact (po_nodup _ _ _ OK)|].
    apply map_ext_in. intros (i, z) I. cbn [fst snd]. symmetry. now destruct (po_entry _ _ _ OK i z I).
  - intros y I. apply KEY. now rewrite PM.
  - now rewrite <- PM.
  - exact SE.
  - now rewrite N.add_0_l, <- (fees_perm s _ _ PM).
  - intros J. apply NE. unfold entries. apply in_map_iff. eexists (_, e). split; [reflexivity|exact J].
  - assert (IX' := IX). unfold entries in IX'. apply in_map_iff in IX' as ((i, z) & EZ & IX'). cbn [snd] in EZ. subst z. apply purge_sub in IX'.
    rewrite <- PM. unfold entries. apply in_map_iff. exists (i, x). auto.
  - unfold entries in IX. apply in_map_iff in IX as ((i, z) & EZ & IX). cbn [snd] in EZ. subst z. pose proof (purge_sub _ _ _ _ _ _ _ _ _ _ IX) as IP.
    destruct (po_entry _ _ _ OK i x IP) as (-> & _). apply in_map_iff. exists (i, x). auto.
Qed.
Print Assumptions C63_cheapest_removed.

(** ** Examples: Alice [A] sends to Bob [B], with a change, and Bob to Carol [C] *)
Definition aA : addr := repeat 1 32. Definition aB : addr := repeat 2 32. Definition aC : addr := repeat 3 32.
Definition coin : addr := repeat 0 32.
Definition ptx (n : N) (sender : addr) (ratio : N) (ins : list txin) (outs : list txout) : tx :=
  mk_tx true (repeat n 32) 0 1000 ratio 100000 (Some sender) ins outs None [] 0 1 (fun _ _ => Accepted) (fun _ _ => Accepted) None.
Definition pt1 : tx := ptx 11 aA 1024 [mk_txin aA coin 10 None false 0] [mk_txout aB coin 7 (Some [104; 105]); mk_txout aA coin 3 None].
Definition pt2 : tx := ptx 12 aB 2048 [mk_txin aB coin 5 None false 0] [mk_txout aC coin 5 None].
Definition pt3 : tx := ptx 13 aA 512 [mk_txin aA coin 1 None false 0] [mk_txout aC coin 1 None].
Definition pe (t : tx) (fee : N) : entry := mk_entry t fee 0 false.
Definition mk1 (a : addr) (m : bytes) : addr := a ++ m.
Definition U1 (t : tx) : Prop := In t [pt1; pt2; pt3].
Definition ops1 : list pool_op := [PUpdate (pe pt1 40) false 100; PUpdate (pe pt2 30) false 30; PUpdate (pe pt3 70) false 100; PUpdate (pe pt1 50) false 100; PUpdate (pe pt3 50) false 100].
Definition pool1 : pool := pool_run mk1 ops1 pool_empty.
Lemma U1_ok : ids_ok U1.
Proof. intros t t' [<-|[<-|[<-|[]]]] [<-|[<-|[<-|[]]]] E; try (vm_compute in E; discriminate); auto. Qed.
Lemma reached_run memo_key U l : forall p, reached memo_key U p -> Forall (op_ok U) l -> (length (pl_txs p) + length l <= 100)%nat -> reached memo_key U (pool_run memo_key l p).
Proof.
  induction l as [|o l IH]; intros p R F L; cbn [pool_run fold_left]; auto. inversion F; subst. cbn [length] in L.
  assert (L1 : (length (pl_txs (pool_do memo_key o p)) <= S (length (pl_txs p)))%nat).
  { destruct o as [e f b|id]; cbn [pool_do]; [|rewrite erase_txs; pose proof (del_length id (pl_txs p)); lia].
    destruct (pool_update memo_key e f b p) as [(p', x)|] eqn:E; [|lia]. unfold pool_update in E. destruct (pe_skipped e); [discriminate|].
    destruct (t_sender (pe_tx e)); [|injection E as <- <-; lia]. destruct (negb f && _); injection E as <- <-; [lia|]. cbn [pl_txs put length].
    pose proof (del_length (t_id (pe_tx e)) (pl_txs p)). lia. }
  apply IH; auto; [apply reached_op; auto; lia|lia].
Qed.
Lemma pool1_reached : reached mk1 U1 pool1.
Proof.
  apply reached_run; [apply reached_empty| |cbn; lia].
  repeat (constructor; [cbn [op_ok pe pe_tx pe_fee]; split; [unfold U1; cbn [In]; tauto|split; [reflexivity|reflexivity]]|]). constructor.
Qed.
(** pt3 does not fit at first: 40 + 70 > 100; the new fee of pt1 replaces the old one; then 50 + 50 fits *)
Example C41_case : fees_from aA (entries pool1) = 100 /\ fees_from aB (entries pool1) = 30 /\ length (pl_txs pool1) = 3%nat /\
  pool_update mk1 (pe pt3 51) false 100 pool1 = Some (pool1, false) /\
  match pool_update mk1 (pe pt3 51) true 100 pool1 with Some (p, b) => b = true /\ fees_from aA (entries p) = 101 | None => False end /\
  fees_from aA (entries (pool_erase mk1 (t_id pt1) pool1)) = 50.
Proof. vm_compute. repeat split. Qed.
Example C62_case : pending_history [aC] pool1 = [PReceive (t_id pt3) (mk_txout aC coin 1 None); PReceive (t_id pt2) (mk_txout aC coin 5 None)] /\
  length (pending_history [aA] pool1) = 3%nat.
Proof. vm_compute. repeat split. Qed.
(** Asked for Alice and Bob together, the node shows the payment of Alice to Bob twice. *)
Theorem C62_shown_once_refuted : exists memo_key U p S x, ids_ok U /\ reached memo_key U p /\ NoDup S /\ io_of S p x /\
  (forall id e, In (id, e) (pl_txs p) -> NoDup (t_inputs (pe_tx e)) /\ NoDup (t_outputs (pe_tx e))) /\
  exists l1 l2 l3, pending_history S p = l1 ++ x :: l2 ++ x :: l3.
Proof.
  exists mk1, U1, pool1, [aA; aB], (PSpend (t_id pt1) (mk_txin aA coin 10 None false 0)).
  split; [exact U1_ok|]. split; [exact pool1_reached|]. split; [repeat constructor; cbn; intuition discriminate|]. split; [|split].
  - exists (t_id pt1), (pe pt1 50). split; [vm_compute; tauto|]. left. exists (mk_txin aA coin 10 None false 0). split; [now left|]. split; [now left|reflexivity].
  - assert (A : Forall (fun x => pe_tx (snd x) = pt1 \/ pe_tx (snd x) = pt2 \/ pe_tx (snd x) = pt3) (pl_txs pool1)) by (vm_compute; repeat constructor; tauto).
    intros id e I. rewrite Forall_forall in A. destruct (A _ I) as [E|[E|E]]; cbn [snd] in E; rewrite E; split; cbn; repeat (constructor; [cbn; intuition discriminate|]); constructor.
  - set (x := PSpend (t_id pt1) (mk_txin aA coin 10 None false 0)). set (l := pending_history [aA; aB] pool1). vm_compute in l.
    eexists [_], [_; _; _], _. vm_compute. reflexivity.
Qed.
Print Assumptions C62_shown_once_refuted.
(** a size of 1 each, room for 2: the one with the lowest fee ratio is removed; then a balance of Alice that is too small for both transactions *)
Definition sorted1 : list entry := [pe pt2 30; pe pt1 50; pe pt3 50].
Example C63_case : Permutation (entries pool1) sorted1 /\ StronglySorted (fun x y => t_ratio (pe_tx y) <= t_ratio (pe_tx x)) sorted1 /\
  map (fun e => t_id (pe_tx e)) (entries (fst (purge mk1 (fun _ => 1) (fun _ => 100) 2 sorted1 0 (fun _ => 0) 0 pool1))) = [t_id pt1; t_id pt2] /\
  map (fun e => t_id (pe_tx e)) (entries (fst (purge mk1 (fun _ => 1) (fun _ => 60) 9 sorted1 0 (fun _ => 0) 0 pool1))) = [t_id pt1; t_id pt2] /\
  fst (purge mk1 (fun _ => 1) (fun _ => 100) 3 sorted1 0 (fun _ => 0) 0 pool1) = pool1.
Proof.
  split; [|split; [|split; [|split]]].
  - assert (E : entries pool1 = [pe pt3 50; pe pt1 50; pe pt2 30]) by (vm_compute; reflexivity). rewrite E. unfold sorted1.
    apply Permutation_sym. apply (Permutation_rev [pe pt2 30; pe pt1 50; pe pt3 50]).
  - unfold sorted1. repeat (constructor; [|repeat constructor; vm_compute; discriminate]). constructor.
  - vm_compute. reflexivity.
  - vm_compute. reflexivity.
  - vm_compute. reflexivity.
Qed.
