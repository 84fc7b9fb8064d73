(** The properties about histories *)
Require Import List Arith NArith ZArith Bool Sorted Permutation Lia.
From Verif Require Import BytesLib OrdLib VarModel EngineModel ExecModel StorModel TxModel TxSpec TxProps BlockModel BlockSpec BlockProofs BlockProps HistModel HistSpec HistProofs.
Import List ListNotations.
Open Scope N_scope.

(** ** C99.  get_history returns exactly the payments that were asked for, newest first: those of the addresses, between the two heights, of the
    kind and in the currencies that were given.  With a limit n, exactly those of which less than n are in later blocks (so no block is cut and
    at least n entries are returned if there are as many).  What the pool of pending transactions adds comes on top. *)
Theorem C99_history_is_complete_partial : forall log pending addresses q, log_ok log -> limit_ok q -> q_since q <= q_until q -> q_max_search q = 0 ->
  exists r rows, get_history log pending addresses q = Some r /\ rows_are log rows (wanted addresses q) /\
    Permutation r (shown (q_limit q) (map snd rows ++ pending)) /\ newest_first r.
Proof. intros log pending addresses q L LI R M. apply history_complete; auto. Qed.
Print Assumptions C99_history_is_complete_partial.
(** However far is searched: only what was asked for, and nothing twice. *)
Theorem C99_nothing_else_partial : forall log pending addresses q r, log_ok log -> q_since q <= q_until q -> get_history log pending addresses q = Some r ->
  exists rows, rows_among log rows (wanted addresses q) /\ Permutation r (shown (q_limit q) (map snd rows ++ pending)) /\ newest_first r.
Proof. intros log pending addresses q r L R E. eapply history_sound; eauto. Qed.
Print Assumptions C99_nothing_else_partial.
(** With a limit there are at least as many as asked for, if there are as many, and without the oldest block there are less. *)
Theorem C99_limit : forall (n : Z) l, (0 < n)%Z ->
  N.min (Z.to_N n) (N.of_nat (List.length l)) <= N.of_nat (List.length (shown n l)) /\
  forall e, In e (shown n l) -> N.of_nat (List.length (filter (fun x => e_height e <? e_height x) (shown n l))) < Z.to_N n.
Proof.
  intros n l P. split.
  - pose proof (sorted_newest _ (sort_sorted l)) as S. rewrite <- (Permutation_length (shown_perm n _ _ (sort_perm l))), <- (Permutation_length (sort_perm l)).
    rewrite <- cut_shown by (auto; lia). unfold cut. replace (0 <? n)%Z with true by (symmetry; apply Z.ltb_lt; auto). cbn [andb].
    destruct (Z.ltb_spec n (Z.of_nat (List.length (sort l)))) as [LT|GE]; [|lia].
    destruct (skipn (Z.to_nat (n - 1)) (sort l)) as [|x rest] eqn:E; [lia|]. rewrite app_length, firstn_length. cbn [take_while]. rewrite N.eqb_refl. cbn [List.length]. lia.
  - intros e I. unfold shown in *. replace (n <? 0)%Z with false in * by (symmetry; apply Z.ltb_ge; lia). apply filter_In in I. destruct I as (I & Q). apply N.ltb_lt in Q.
    eapply N.le_lt_trans; [|exact Q]. unfold later. clear. generalize (fun e0 => N.of_nat (List.length (filter (fun x => e_height e0 <? e_height x) l)) <? Z.to_N n). intros f.
    induction l as [|x l IH]; cbn [filter]; [lia|]. destruct (f x); cbn [filter]; destruct (e_height e <? e_height x); cbn [List.length]; lia.
Qed.
Print Assumptions C99_limit.
(** False when the range is empty: asked for heights from 5 to 3, the payments of height 3 are returned. *)
Definition ent (a h : N) (k : kind) (v : N) : entry := mk_entry h [h] k zero_addr [a] (Some [9]) v.
Definition log3 : list (key * entry) := [((([1], 2), 0), ent 1 2 RECEIVE 10); ((([1], 3), 0), ent 1 3 RECEIVE 20); ((([1], 3), 1), ent 1 3 SPEND 5); ((([2], 1), 0), ent 2 1 REWARD 7)].
Lemma log3_ok : log_ok log3.
Proof.
  constructor.
  - repeat constructor.
  - intros k e I. cbn [log3 In] in I. repeat (destruct I as [[= <- <-]|I]; [reflexivity|]). destruct I.
  - intros k e I. cbn [log3 In] in I. repeat (destruct I as [[= <- <-]|I]; [reflexivity|]). destruct I.
  - reflexivity.
Qed.
Theorem C99_empty_range_refuted : exists log addresses q r e, log_ok log /\ limit_ok q /\ q_max_search q = 0 /\ get_history log [] addresses q = Some r /\
  In e r /\ ~ (q_since q <= e_height e <= q_until q).
Proof.
  exists log3, [[1]], (mk_query 5 3 (-1) 0 [] None). do 2 eexists. split; [apply log3_ok|]. split; [split; vm_compute; congruence|]. split; [reflexivity|].
  split; [vm_compute; reflexivity|]. split; [left; reflexivity|]. vm_compute. intros (X & _). apply X. reflexivity.
Qed.
Print Assumptions C99_empty_range_refuted.
Example C99_case : get_history log3 [] [[2]; [1]; [2]] (mk_query 0 9 (-1) 0 [] None) = Some [ent 1 3 RECEIVE 20; ent 1 3 SPEND 5; ent 1 2 RECEIVE 10; ent 2 1 REWARD 7] /\
  get_history log3 [] [[2]; [1]] (mk_query 0 9 1 0 [] None) = Some [ent 1 3 RECEIVE 20; ent 1 3 SPEND 5] /\
  get_history log3 [] [[2]; [1]] (mk_query 1 2 3 0 [zero_addr] (Some RECEIVE)) = Some [ent 1 2 RECEIVE 10].
Proof. repeat split; vm_compute; reflexivity. Qed.
(** more rows than one chunk: 250 payments in one block and 3 in the next; a limit of 4 gives all of them, a limit of 3 those of the last block *)
Fixpoint many (n : nat) (h t : N) : list (key * entry) := match n with O => [] | S n => ((([1], h), t), ent 1 h RECEIVE t) :: many n h (t + 1) end.
Example C99_case_chunks :
  let len l := N.of_nat (match get_history (many 250 4 0 ++ many 3 5 0) [] [[1]] (mk_query 0 9 l 0 [] None) with Some r => List.length r | None => O end) in
  len 4%Z = 253 /\ len 3%Z = 3 /\ len 0%Z = 0 /\ len (-1)%Z = 253 /\
  (* a search for at most one row stops after the first chunk *)
  N.of_nat (match get_history (many 250 4 0 ++ many 3 5 0) [] [[1]] (mk_query 0 9 (-1) 1 [] None) with Some r => List.length r | None => O end) = 100.
Proof. repeat split; vm_compute; reflexivity. Qed.

(** ** C100.  With a memo, get_history returns exactly the payments that were asked for and have that memo, as long as no two pairs of address and memo
    have the same hash. *)
Theorem C100_memo_history_partial : forall H log memos pending addresses memo q,
  (forall a m a' m', H a m = H a' m' -> a = a' /\ m = m') -> log_ok log -> memos_ok H log memos -> limit_ok q -> q_since q <= q_until q -> q_max_search q = 0 ->
  (q_limit q < 0)%Z ->
  exists r rows, get_history_memo H log memos pending addresses memo q = Some r /\ rows_are log rows (fun e => wanted addresses q e /\ e_memo e = Some memo) /\
    Permutation r (map snd rows ++ pending) /\ newest_first r.
Proof. intros H log memos pending addresses memo q INJ L MM LI R M NEG. apply memo_complete; auto. Qed.
Print Assumptions C100_memo_history_partial.
(** With a limit or however far is searched: only what was asked for, and nothing twice. *)
Theorem C100_nothing_else : forall H log memos pending addresses memo q r,
  (forall a m a' m', H a m = H a' m' -> a = a' /\ m = m') -> log_ok log -> memos_ok H log memos -> q_since q <= q_until q ->
  get_history_memo H log memos pending addresses memo q = Some r ->
  exists rows, rows_among log rows (fun e => wanted addresses q e /\ e_memo e = Some memo) /\ Permutation r (shown (q_limit q) (map snd rows ++ pending)) /\ newest_first r.
Proof. intros H log memos pending addresses memo q r INJ L MM R E. eapply memo_sound; eauto. Qed.
Print Assumptions C100_nothing_else.
(** With a limit, the last block is cut: of 150 payments in one block, the 50 first ones are not returned, although without a limit they are. *)
Definition H0 (a : addr) (m : bytes) : addr := N.of_nat (List.length a) :: a ++ m.
Lemma H0_inj a m a' m' : H0 a m = H0 a' m' -> a = a' /\ m = m'.
Proof.
  unfold H0. intros [= E1 E2]. apply Nat2N.inj in E1. revert a' E1 E2. induction a as [|x a IH]; intros [|y a'] E1 E2; cbn in E1; try discriminate; auto.
  cbn [app] in E2. injection E2 as -> E2. destruct (IH a') as (-> & ->); auto. 
Qed.
Fixpoint memo_rows (n : nat) (h t : N) : list (key * addr) := match n with O => [] | S n => (((H0 [1] [9], h), t), [1]) :: memo_rows n h (t + 1) end.
Lemma many_in n h t k e : In (k, e) (many n h t) <-> exists i, (i < n)%nat /\ k = (([1], h), t + N.of_nat i) /\ e = ent 1 h RECEIVE (t + N.of_nat i).
Proof.
  revert t. induction n as [|n IH]; intros t; cbn [many In]; [split; [intros []|intros (i & L & _); lia]|]. rewrite IH. split.
  - intros [[= <- <-]|(i & L & -> & ->)]; [exists O; rewrite N.add_0_r; split; [lia|auto]|]. exists (S i). replace (t + N.of_nat (S i)) with (t + 1 + N.of_nat i) by lia. split; [lia|auto].
  - intros ([|i] & L & -> & ->); [left; rewrite N.add_0_r; auto|]. right. exists i. replace (t + N.of_nat (S i)) with (t + 1 + N.of_nat i) by lia. split; [lia|auto].
Qed.
Lemma memo_rows_in n h t k a : In (k, a) (memo_rows n h t) <-> exists i, (i < n)%nat /\ k = ((H0 [1] [9], h), t + N.of_nat i) /\ a = [1].
Proof.
  revert t. induction n as [|n IH]; intros t; cbn [memo_rows In]; [split; [intros []|intros (i & L & _); lia]|]. rewrite IH. split.
  - intros [[= <- <-]|(i & L & -> & ->)]; [exists O; rewrite N.add_0_r; split; [lia|auto]|]. exists (S i). replace (t + N.of_nat (S i)) with (t + 1 + N.of_nat i) by lia. split; [lia|auto].
  - intros ([|i] & L & -> & ->); [left; rewrite N.add_0_r; auto|]. right. exists i. replace (t + N.of_nat (S i)) with (t + 1 + N.of_nat i) by lia. split; [lia|auto].
Qed.
Lemma many_sorted n h t : asorted key_cmp (many n h t) /\ asorted key_cmp (memo_rows n h t).
Proof.
  revert t. unfold asorted. induction n as [|n IH]; intros t; cbn [many memo_rows map fst]; [split; constructor|]. destruct (IH (t + 1)) as (A & B).
  split; constructor; auto; apply Forall_forall; intros k I; apply in_map_iff in I; destruct I as ((k', x) & <- & I); cbn [fst].
  - apply many_in in I. destruct I as (i & _ & -> & _). apply klt_spec. right. split; auto. right. split; auto. lia.
  - apply memo_rows_in in I. destruct I as (i & _ & -> & _). apply klt_spec. right. split; auto. right. split; auto. lia.
Qed.
Lemma many_ok n h : N.of_nat n < 2 ^ 31 -> log_ok (many n h 0) /\ memos_ok H0 (many n h 0) (memo_rows n h 0).
Proof.
  intros B. assert (LN : forall n t, List.length (many n h t) = n /\ List.length (memo_rows n h t) = n) by (clear; induction n as [|n IH]; intros t; cbn; auto; destruct (IH (t + 1)) as (-> & ->); auto).
  split; constructor; try apply many_sorted; try (rewrite (proj1 (LN n 0)); auto); try (rewrite (proj2 (LN n 0)); auto).
  - intros k e I. apply many_in in I. destruct I as (i & _ & -> & ->). auto.
  - intros k e I. apply many_in in I. destruct I as (i & L & -> & ->). cbn [snd]. lia.
  - intros p h' t a. rewrite memo_rows_in. split.
    + intros (i & L & [= -> -> ->] & ->). exists (ent 1 h RECEIVE (N.of_nat i)), [9]. split; [|auto]. apply many_in. exists i. auto.
    + intros (e & m & I & M & ->). apply many_in in I. destruct I as (i & L & [= -> -> ->] & ->). exists i. injection M as <-. auto.
Qed.
Theorem C100_limit_refuted : exists H log memos addresses memo q r e x, (forall a m a' m', H a m = H a' m' -> a = a' /\ m = m') /\ log_ok log /\ memos_ok H log memos /\
  limit_ok q /\ q_since q <= q_until q /\ q_max_search q = 0 /\ get_history_memo H log memos [] addresses memo q = Some r /\
  In x log /\ snd x = e /\ wanted addresses q e /\ e_memo e = Some memo /\ ~ In e r /\ (exists e', In e' r /\ e_height e' = e_height e) /\ N.of_nat (List.length r) = 100.
Proof.
  assert (B : N.of_nat 150 < 2 ^ 31) by reflexivity. destruct (many_ok 150 4 B) as (L & M).
  exists H0, (many 150 4 0), (memo_rows 150 4 0), [[1]], [9], (mk_query 0 9 1 0 [] None).
  destruct (get_history_memo H0 (many 150 4 0) (memo_rows 150 4 0) [] [[1]] [9] (mk_query 0 9 1 0 [] None)) as [r|] eqn:E; [|vm_compute in E; discriminate].
  assert (ER : Some r = get_history_memo H0 (many 150 4 0) (memo_rows 150 4 0) [] [[1]] [9] (mk_query 0 9 1 0 [] None)) by auto. clear E.
  exists r, (ent 1 4 RECEIVE 10), ((([1], 4), 10), ent 1 4 RECEIVE 10). split; [apply H0_inj|]. split; [auto|]. split; [auto|]. split; [split; vm_compute; congruence|].
  split; [vm_compute; congruence|]. split; [auto|]. split; [auto|]. split; [apply many_in; exists 10%nat; split; [lia|auto]|]. split; [auto|]. split.
  { split; [left; auto|]. split; [vm_compute; split; congruence|]. split; [cbn; congruence|]. intros X. exfalso. apply X. reflexivity. }
  split; [auto|].
  assert (P : existsb (fun e => e_amount e =? 10) r = false /\ existsb (fun e => e_height e =? 4) r = true /\ N.of_nat (List.length r) = 100).
  { vm_compute in ER. injection ER as ->. vm_compute. auto. }
  destruct P as (P1 & P2 & P3). split; [|split; auto].
  - intros I. assert (existsb (fun e => e_amount e =? 10) r = true) by (apply existsb_exists; eexists; split; [apply I|reflexivity]). congruence.
  - apply existsb_exists in P2. destruct P2 as (e' & I & Q). apply N.eqb_eq in Q. exists e'. auto.
Qed.
Print Assumptions C100_limit_refuted.
Example C100_case : log_ok (many 150 4 0) /\ memos_ok H0 (many 150 4 0) (memo_rows 150 4 0) /\
  N.of_nat (match get_history_memo H0 (many 150 4 0) (memo_rows 150 4 0) [] [[1]] [9] (mk_query 0 9 (-1) 0 [] None) with Some r => List.length r | None => O end) = 150 /\
  get_history_memo H0 (many 150 4 0) (memo_rows 150 4 0) [] [[1]] [8] (mk_query 0 9 (-1) 0 [] None) = Some [].
Proof. destruct (many_ok 150 4) as (A & B); [reflexivity|]. split; [exact A|]. split; [exact B|]. split; vm_compute; reflexivity. Qed.

(** ** C101.  The history of an address explains its balance: for every chain, address and currency, what the history shows as received is the balance
    plus what it shows as spent. *)
Theorem C101_history_adds_up : forall H b log memos h, chain H b log memos h -> N.of_nat (List.length log) < 2 ^ 31 ->
  forall a cur addresses q, In a addresses -> q_since q = 0 -> h <= q_until q -> limit_ok q -> (q_limit q < 0)%Z -> q_max_search q = 0 -> q_kind q = None ->
  (q_currency q = [] \/ In cur (q_currency q)) ->
  exists r, get_history log [] addresses q = Some r /\ received_sum a cur r = bal0 b a cur + spent_sum a cur r.
Proof.
  intros H b log memos h C SZ a cur addresses q IA S0 U LI NEG M K CUR. destruct (chain_logs _ _ _ _ _ C SZ) as (L & _ & HB). destruct (chain_ok _ _ _ _ _ C) as (_ & B).
  destruct (history_complete log [] addresses q L) as (r & rows & E & (ND & RW) & P & _); auto; [rewrite S0; lia|].
  exists r. split; auto. unfold shown in P. replace (q_limit q <? 0)%Z with true in P by (symmetry; apply Z.ltb_lt; auto). rewrite app_nil_r in P.
  rewrite (received_perm _ _ _ _ P), (spent_perm _ _ _ _ P).
  destruct (sums_filter a cur rows) as (<- & <-). specialize (B a cur). destruct (sums_filter a cur log) as (E1 & E2). rewrite <- E1, <- E2 in B.
  set (f := fun r0 : key * entry => addr_eqb (e_address (snd r0)) a && addr_eqb (e_contract (snd r0)) cur) in *.
  assert (PP : Permutation (map snd (filter f rows)) (map snd (filter f log))).
  { apply Permutation_map, NoDup_Permutation; [apply NoDup_filter; auto|apply NoDup_filter, asorted_nodup, L|].
    intros (k, e). rewrite !filter_In, RW. split; [intros ((? & _) & ?); auto|]. intros (I & F). split; auto. split; auto.
    unfold f in F. cbn [snd] in F. apply andb_true_iff in F. destruct F as (F1 & F2). apply addr_eqb_iff in F1, F2. subst a cur.
    split; auto. split; [specialize (HB _ _ I); rewrite S0; lia|]. split; [congruence|]. intros N. destruct CUR as [CUR|CUR]; [congruence|auto]. }
  rewrite (received_perm _ _ _ _ PP), (spent_perm _ _ _ _ PP). auto.
Qed.
Print Assumptions C101_history_adds_up.
(** the logs of a chain are as C99 and C100 require *)
Theorem C101_logs_of_chains : forall H b log memos h, chain H b log memos h -> N.of_nat (List.length log) < 2 ^ 31 -> log_ok log /\ memos_ok H log memos.
Proof. intros H b log memos h C SZ. destruct (chain_logs _ _ _ _ _ C SZ) as (L & M & _). auto. Qed.
Print Assumptions C101_logs_of_chains.
(** a genesis block and a block with two transactions, one of which fails *)
Definition log0 := write_log 0 (map (entry_out [6] 0 RECEIVE) outs0) [].
Definition log1 := write_log 0 (block_entries (rules1 200000 [] 0) [7] 1 (block1 None 0)) log0.
Lemma out_to_all a cur l : out_to a cur l <= nsum (map to_amount l).
Proof. induction l as [|o l IH]; [reflexivity|]. rewrite out_to_cons. cbn [map nsum fold_right]. unfold nsum in IH. unfold amto. destruct (_ && _); lia. Qed.
Lemma chain1 : exists memos, chain H0 (after (rules1 200000 [] 0) (block1 None 0)) log1 memos 1.
Proof.
  destruct block1_valid as (s & V). eexists. apply (chain_next H0 (node1 90000) (rules1 200000 [] 0) db1 [7] (block1 None 0) s log0 (write_memos H0 0 (map (entry_out [6] 0 RECEIVE) outs0) []) 0).
  - apply (chain_first H0 [6] outs0). intros a cur. eapply N.le_lt_trans; [apply out_to_all|]. vm_compute. reflexivity.
  - apply ledger1.
  - exact V.
  - intros a cur. pose proof (out_to_all a cur (outs_of (rules1 200000 [] 0) (block1 None 0))) as X. pose proof (out_to_all a cur outs0) as Y.
    change (nsum (map to_amount outs0)) with 1000205 in Y. set (z := nsum _) in X. vm_compute in z. subst z. change (d_bal db1) with balances1. unfold balances1.
    change (2 ^ 128) with 340282366920938463463374607431768211456. rewrite apply_ok; change (bal0 (fun _ _ => None) a cur) with 0; change (in_from a cur []) with 0;
    change (2 ^ 128) with 340282366920938463463374607431768211456; lia.
Qed.
Example C101_case : (exists b memos, chain H0 b log1 memos 1 /\ bal0 b aS zero_addr = 1000000 - 288671) /\
  N.of_nat (List.length log1) = 11 /\
  exists r, get_history log1 [] [aS] (mk_query 0 (2 ^ 32 - 1) (-1) 0 [zero_addr] None) = Some r /\
    received_sum aS zero_addr r = 1000000 /\ spent_sum aS zero_addr r = 288671 /\ map (fun e => (e_height e, kind_code (e_kind e))) r = [(1, 2); (1, 2); (1, 0); (0, 1)].
Proof.
  split; [|split].
  - destruct chain1 as (memos & C). do 2 eexists. split; [exact C|]. vm_compute. reflexivity.
  - vm_compute. reflexivity.
  - eexists. split; [vm_compute; reflexivity|]. vm_compute. auto.
Qed.
