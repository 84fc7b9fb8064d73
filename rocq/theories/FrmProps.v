(** C122: what a farmer reports and counts.  C123: what a farmer signs. *)
Require Import List Arith NArith ZArith Bool Lia.
From Verif Require Import PrsModel PrsProofs FrmModel FrmSpec FrmProofs.
Import ListNotations.
Open Scope N_scope.

(** ** C122 *)

(** The totals of the report, whatever happened: those of the harvesters that are there, each once, modulo 2^64 (bytes, balance) and 2^32 (plots) *)
Theorem C122_totals : forall hash_name timeout conf l hs, (0 <= timeout)%Z -> NoDup hs -> (forall h, In h hs <-> current hash_name timeout l h <> None) ->
  let r := get_farm_info (run hash_name timeout conf l) in
  let total f := sum (fun h => of f (current hash_name timeout l h)) hs in
  r_bytes r = total i_bytes mod 2 ^ 64 /\ r_eff r = total i_eff mod 2 ^ 64 /\ r_balance r = total i_balance mod 2 ^ 64 /\
  (forall k, match get k (r_plots r) with Some n => n | None => 0 end = total (fun v => under k (fun n => n) (i_plots v)) mod 2 ^ 32) /\
  (forall n, match get n (r_names r) with Some p => p | None => (0, 0) end = (total (bytes_of n i_bytes) mod 2 ^ 64, total (bytes_of n i_eff) mod 2 ^ 64)) /\
  (forall c, match get c (r_pools r) with Some p => g_count p | None => 0 end = total (fun v => under c g_count (i_pools v)) mod 2 ^ 32).
Proof.
  intros hn timeout conf l hs T ND K r total. set (f := run hn timeout conf l) in *.
  assert (ND0 : NoDup (map fst (f_infos (init conf)))) by constructor.
  assert (ND1 : NoDup (map fst (f_infos f))) by exact (proj1 (infos_run hn timeout l (init conf) 0 T ND0)).
  assert (C : forall h, fold_left (hear hn timeout h) l None = get h (f_infos f)).
  { intros h. symmetry. exact (proj2 (infos_run hn timeout l (init conf) h T ND0)). }
  assert (S : forall g, sum g (entries (f_infos f)) = total g).
  { intros g. unfold entries. rewrite <- (map_map snd snd (f_infos f)), sum_map.
    rewrite (sum_current (fun h => fold_left (hear hn timeout h) l None) (fun x => g (snd x)) (f_infos f) hs ND1 ND C).
    - unfold total. apply sum_ext. intros h _. unfold of, current. now destruct (fold_left _ l None) as [[t v]|].
    - intros h. rewrite K. unfold current. now destruct (fold_left _ l None). }
  pose proof (gather_sums (entries (f_infos f)) nothing small_nothing) as G. destruct G.
  unfold r, get_farm_info. rewrite gather_entries. fold nothing. cbn zeta. cbn [r_bytes r_eff r_balance r_plots r_names r_pools].
  rewrite sm_b, sm_e, sm_a, !S. cbn [nothing r_bytes r_eff r_balance]. rewrite !N.add_0_l.
  split; [reflexivity|]. split; [reflexivity|]. split; [reflexivity|]. split; [|split].
  - intros k. specialize (sm_p k). unfold cnt at 1 in sm_p. rewrite sm_p, S. reflexivity.
  - intros n. specialize (sm_n n). unfold ncount at 1 in sm_n. rewrite sm_n, !S. reflexivity.
  - intros c. specialize (sm_g c). unfold pcount at 1 in sm_g. rewrite (get_map (fun k p => mk_pool (g_contract p) (g_url p) (g_rest p) (get_partial_diff k f) (g_count p)) c).
    rewrite S in sm_g. rewrite N.add_0_l in sm_g. change (2 ^ 32) with u32. rewrite <- sm_g. now destruct (get c (r_pools (gather _ nothing))).
Qed.
Print Assumptions C122_totals.

(** The pools of the report: those some harvester that is there reports, with what one of them says about it, and the last difficulty above 0 the pool gave *)
Theorem C122_pools : forall hash_name timeout conf l c, (0 <= timeout)%Z ->
  let r := get_farm_info (run hash_name timeout conf l) in
  ((exists p, get c (r_pools r) = Some p) <-> exists h v, current hash_name timeout l h = Some v /\ In c (map fst (i_pools v))) /\
  (forall p, get c (r_pools r) = Some p -> g_diff p = last_diff c 0 l /\
     exists h v q, current hash_name timeout l h = Some v /\ In (c, q) (i_pools v) /\ g_rest p = g_rest q /\ g_url p = g_url q /\ g_contract p = g_contract q).
Proof.
  intros hn timeout conf l c T r. set (f := run hn timeout conf l) in *.
  assert (ND0 : NoDup (map fst (f_infos (init conf)))) by constructor.
  assert (ND1 : NoDup (map fst (f_infos f))) by exact (proj1 (infos_run hn timeout l (init conf) 0 T ND0)).
  assert (C : forall h, fold_left (hear hn timeout h) l None = get h (f_infos f)).
  { intros h. symmetry. exact (proj2 (infos_run hn timeout l (init conf) h T ND0)). }
  assert (I : forall v, In v (entries (f_infos f)) <-> exists h, current hn timeout l h = Some v).
  { intros v. unfold entries. rewrite in_map_iff. split.
    - intros [[h [t w]] [<- H]]. exists h. unfold current. rewrite C, (in_get h (t, w)); easy.
    - intros [h H]. unfold current in H. rewrite C in H. destruct (get h (f_infos f)) as [[t w]|] eqn:E; [|discriminate]. injection H as <-. exists (h, (t, w)). split; [easy|now apply get_in]. }
  unfold r, get_farm_info. rewrite gather_entries. fold nothing. cbn zeta. cbn [r_pools].
  rewrite (get_map (fun k p => mk_pool (g_contract p) (g_url p) (g_rest p) (get_partial_diff k f) (g_count p)) c). split.
  - pose proof (gather_pool c (entries (f_infos f)) nothing) as G. destruct (get c (r_pools (gather _ nothing))) as [p|] eqn:E.
    + cbn [option_map]. split; [|intros _; eexists; reflexivity]. intros _. apply gather_pool_from in E. destruct E as [[v [q [H1 [H2 _]]]]|E]; [|discriminate].
      apply I in H1. destruct H1 as [h H1]. exists h, v. split; [easy|]. now apply (in_key _ q).
    + cbn [option_map]. split; [now intros [p H]|]. intros [h [v [H1 H2]]]. exfalso. apply (proj2 (proj1 G eq_refl) v); [apply I; now exists h|easy].
  - intros p H. destruct (get c (r_pools (gather _ nothing))) as [p'|] eqn:E; [|discriminate]. cbn [option_map] in H. injection H as <-. cbn [g_diff g_rest g_url g_contract]. split.
    + unfold get_partial_diff. exact (sdiff_run hn timeout c l (init conf)).
    + apply gather_pool_from in E. destruct E as [[v [q [H1 [H2 H3]]]]|E]; [|discriminate]. apply I in H1. destruct H1 as [h H1]. now exists h, v, q.
Qed.
Print Assumptions C122_pools.

(** The statistics: each partial that was answered, or could not be sent, is counted once, as valid or under one error *)
Theorem C122_partials : forall hash_name timeout conf l c,
  let t := match get c (r_stats (get_farm_info (run hash_name timeout conf l))) with Some t => t | None => no_stats end in
  let a := answers c l in
  s_total t = count is_ok a mod 2 ^ 32 /\ s_valid t = sum points a mod 2 ^ 64 /\ s_failed t = sum lost a mod 2 ^ 64 /\
  (forall k, match get k (s_err t) with Some n => n | None => 0 end = count (is_fault k) a mod 2 ^ 32) /\
  (forall x, In x a -> is_ok x = false <-> exists! k, is_fault k x = true) /\ s_diff t = last_diff c 0 l.
Proof.
  intros hn timeout conf l c t a. change t with (stats_of c (run hn timeout conf l)). clear t. cbn zeta.
  pose proof (counts_run hn timeout c l (init conf)) as C. fold (run hn timeout conf l) in C.
  pose proof (sdiff_run hn timeout c l (init conf)) as D. fold (run hn timeout conf l) in D.
  destruct (tally_ok (answers c l) no_stats) as [H1 [H2 [H3 H4]]]; [easy..|].
  change (stats_of c (init conf)) with no_stats in *. unfold counts in C. injection C as C1 C2 C3 C4. rewrite C1, C2, C3, C4, D, H1, H2, H3. fold a.
  split; [reflexivity|]. split; [reflexivity|]. split; [reflexivity|]. split; [|split; [|reflexivity]].
  - intros k. specialize (H4 k). unfold cnt at 1 in H4. fold a in H4. rewrite H4. reflexivity.
  - intros x _. unfold is_ok, is_fault. destruct x as [d [[p ms|k|]|]]; unfold fault; cbn [snd].
    + split; [discriminate|]. now intros [k [H _]].
    + split; [intros _|easy]. destruct k as [|k]; eexists; (split; [apply N.eqb_refl|]); intros y E; now apply N.eqb_eq in E.
    + split; [intros _|easy]. eexists; (split; [apply N.eqb_refl|]); intros y E; now apply N.eqb_eq in E.
    + split; [intros _|easy]. eexists; (split; [apply N.eqb_refl|]); intros y E; now apply N.eqb_eq in E.
Qed.
Print Assumptions C122_partials.

(** The reward address of the report: the configured one for good, else the first one the wallet gives, for good *)
Theorem C122_address : forall hash_name timeout conf l,
  r_addr (get_farm_info (run hash_name timeout conf l)) = match configured conf with Some a => Some a | None => first_some (accounts_given l) end.
Proof.
  intros hn timeout conf l. unfold get_farm_info. cbn [r_addr]. unfold run. rewrite addr_run. unfold init, configured. cbn [f_addr].
  destruct conf as [a|]; [|easy]. now destruct a.
Qed.
Print Assumptions C122_address.

(** Not so: a harvester that starts again has another id (it is drawn at random, src/Harvester.cpp:29), so its space counts twice until the old one is [timeout] seconds old *)
Theorem C122_restart_refuted : forall hash_name timeout, (0 < timeout)%Z -> forall name bytes, 0 < bytes < 2 ^ 63 ->
  exists l v w, l = [(0%Z, Info v); (1%Z, Info w); ((timeout * 1000000)%Z, Expire)] /\ i_name v = Some name /\ i_name w = Some name /\ i_bytes v = bytes /\ i_bytes w = bytes /\
  r_bytes (get_farm_info (run hash_name timeout None l)) = 2 * bytes.
Proof.
  intros hn timeout T name bytes B. exists [(0%Z, Info (mk_info (Some 1) (Some name) [] [] bytes bytes 0)); (1%Z, Info (mk_info (Some 2) (Some name) [] [] bytes bytes 0)); ((timeout * 1000000)%Z, Expire)].
  do 2 eexists. split; [reflexivity|]. do 4 (split; [reflexivity|]).
  destruct (C122_totals hn timeout None [(0%Z, Info (mk_info (Some 1) (Some name) [] [] bytes bytes 0)); (1%Z, Info (mk_info (Some 2) (Some name) [] [] bytes bytes 0)); ((timeout * 1000000)%Z, Expire)] [1; 2]) as [R _].
  - lia.
  - repeat constructor; cbn; intuition discriminate.
  - intros h. unfold current. cbn [fold_left hear snd fst is_from i_id]. destruct (N.eq_dec h 1) as [->|H1]; [|destruct (N.eq_dec h 2) as [->|H2]].
    + cbn [N.eqb Pos.eqb]. rewrite (proj2 (Z.leb_gt _ _)) by lia. split; [discriminate|now left].
    + cbn [N.eqb Pos.eqb]. rewrite (proj2 (Z.leb_gt _ _)) by lia. split; [discriminate|]. intros _. right. now left.
    + rewrite !(proj2 (N.eqb_neq _ _)) by congruence. cbn. split; [intros [A|[A|[]]]; congruence|easy].
  - rewrite R. cbn [sum]. unfold current. cbn [fold_left hear snd fst is_from i_id]. cbn [N.eqb Pos.eqb].
    rewrite !(proj2 (Z.leb_gt _ _)) by lia. cbn [option_map snd of i_bytes]. rewrite N.mod_small; [lia|]. change (2 ^ 63) with 9223372036854775808 in B. change (2 ^ 64) with 18446744073709551616. lia.
Qed.
Print Assumptions C122_restart_refuted.

(** Not so: the difficulty that is reported need not come from the pool that is reported: after a change of the pool the old one stays until the new one answers *)
Theorem C122_pool_refuted : exists l v c url d, d <> 0 /\
  (forall t w, In (t, Info w) l -> forall k q, In (k, q) (i_pools w) -> g_url q <> Some url) /\
  exists p, get c (r_pools (get_farm_info (run (fun n => n) 60 None (l ++ [(9%Z, Info v)])))) = Some p /\ g_url p = Some url /\ g_diff p = d.
Proof.
  exists [(1%Z, Info (mk_info (Some 1) None [] [(7, mk_pool 7 (Some 100) 0 0 3)] 0 0 0)); (2%Z, Diff 7 5)], (mk_info (Some 1) None [] [(7, mk_pool 7 (Some 200) 0 0 3)] 0 0 0), 7, 200, 5.
  split; [easy|]. split.
  - intros t w [H|[H|[]]]; [|discriminate]. injection H as <- <-. intros k q [H|[]]. injection H as <- <-. discriminate.
  - eexists. split; [vm_compute; reflexivity|]. now split.
Qed.
Print Assumptions C122_pool_refuted.

(** Cases: two harvesters, one named only, one silent for too long *)
Definition ex_infos : list (Z * event) :=
  [(0%Z, Info (mk_info (Some 1) (Some 50) [(32, 4)] [(7, mk_pool 7 (Some 9) 1 0 2)] 100 90 5)); (1000000%Z, Info (mk_info (Some 2) (Some 51) [(32, 3); (33, 1)] [(7, mk_pool 7 (Some 9) 1 0 1)] 50 40 0));
   (2000000%Z, Info (mk_info None (Some 52) [(32, 1)] [] 7 7 1)); (30000000%Z, Info (mk_info (Some 2) (Some 51) [(32, 5)] [(7, mk_pool 7 (Some 9) 1 0 2)] 70 60 0)); (61500000%Z, Expire)].
Example C122_totals_ex : (forall h, In h [2; 1052] <-> current (fun n => n + 1000) 59 ex_infos h <> None) /\ r_bytes (get_farm_info (run (fun n => n + 1000) 59 None ex_infos)) = 77 /\
  cnt 32 (r_plots (get_farm_info (run (fun n => n + 1000) 59 None ex_infos))) = 6.
Proof.
  split; [|split; vm_compute; reflexivity]. intros h. unfold current, ex_infos. cbn [fold_left hear snd fst is_from i_id i_name].
  destruct (N.eqb_spec 1 h) as [<-|A]; [vm_compute; intuition discriminate|]. destruct (N.eqb_spec 2 h) as [<-|B]; [vm_compute; intuition discriminate|].
  destruct (N.eqb_spec (52 + 1000) h) as [<-|C]; [vm_compute; intuition discriminate|]. cbn. intuition lia.
Qed.
Definition ex_answers : list (Z * event) := [(1%Z, Response 7 10 (Some (Valid 12 300))); (2%Z, Response 7 10 (Some (Invalid 3))); (3%Z, Response 7 10 None); (4%Z, Diff 7 11); (5%Z, Diff 7 0); (6%Z, Response 7 11 (Some (Valid 0 200))); (7%Z, Response 8 1 (Some Bad))].
Example C122_partials_ex : let t := stats_of 7 (run (fun n => n) 60 None ex_answers) in
  s_total t = 2 /\ s_valid t = 23 /\ s_failed t = 20 /\ cnt 3 (s_err t) = 1 /\ cnt 16 (s_err t) = 1 /\ s_diff t = 11.
Proof. vm_compute. repeat split. Qed.
Example C122_address_ex : f_addr (run (fun n => n) 60 (Some 0) [(1%Z, Accounts [None]); (2%Z, Accounts [None; Some 4; Some 5]); (3%Z, Accounts [Some 6])]) = Some 4.
Proof. reflexivity. Qed.

(** ** C123 *)

(** Which blocks are signed: those whose (first) proof has a farmer key the wallet gave at some time; and what comes out: nothing changes but the nonce, an address that is missing and the account of a contract; hash, content hash and signature fit.
    [pub]: the public key of a secret key; the wallet gives matching pairs. *)
Theorem C123_block : forall bhash chash sign verify pub, (forall sk m, verify (pub sk) m (sign sk m) = true) ->
  forall hash_name timeout conf l, (forall sk pk, In (sk, pk) (keys_given l) -> pub sk = pk) -> forall rnd b,
  let own := match configured conf with Some a => Some a | None => first_some (accounts_given l) end in
  let res := sign_block bhash chash sign (run hash_name timeout conf l) rnd b in
  (res <> None <-> exists k r, b_proof (b_core b) = k :: r /\ exists sk, In (sk, k) (keys_given l)) /\
  (forall out, res = Some out ->
     b_core out = mk_core (b_proof (b_core b)) (b_rest (b_core b)) (b_amount (b_core b)) rnd
       (match b_addr (b_core b) with Some a => Some a | None => own end) (b_contract (b_core b)) (match b_contract (b_core b) with Some _ => own | None => b_account (b_core b) end) /\
     (b_amount (b_core b) = 0 \/ b_addr (b_core b) <> None \/ own <> None -> good_block bhash chash verify out)).
Proof.
  intros bhash chash sign verify pub SV hn timeout conf l KP rnd b own res.
  assert (K : forall k, get_skey (run hn timeout conf l) k = first_key k (keys_given l)).
  { intros k. unfold get_skey, run. now rewrite keys_run. }
  assert (A : f_addr (run hn timeout conf l) = own) by exact (C122_address hn timeout conf l).
  assert (F : forall k m, match first_key k m with Some sk => In (sk, k) m | None => forall sk, ~ In (sk, k) m end).
  { intros k m. induction m as [|[s p] m IH]; cbn; [easy|]. destruct (N.eqb_spec p k) as [->|H]; [now left|]. destruct (first_key k m); [now right|]. intros sk [E|E]; [congruence|now apply (IH sk)]. }
  unfold res, sign_block. destruct (b_proof (b_core b)) as [|k r] eqn:P.
  - split; [|discriminate]. split; [easy|]. intros [k [r [H _]]]. discriminate.
  - rewrite K. specialize (F k (keys_given l)). destruct (first_key k (keys_given l)) as [sk|] eqn:E.
    + split.
      * split; [|discriminate]. intros _. exists k, r. split; [easy|]. now exists sk.
      * intros out H. injection H as <-. cbn [b_core]. rewrite A. split; [reflexivity|]. intros G. unfold good_block. cbn [b_core b_hash b_sig b_content b_amount b_addr b_proof].
        split; [easy|]. split; [easy|]. split.
        -- intros NZ. destruct (b_addr (b_core b)); [discriminate|]. destruct G as [G|[G|G]]; easy.
        -- do 3 eexists. split; [reflexivity|]. split; [reflexivity|]. rewrite <- (KP sk k F). apply SV.
    + split; [|discriminate]. split; [easy|]. intros [k' [r' [H [sk I]]]]. injection H as <- <-. now apply F in I.
Qed.
Print Assumptions C123_block.

(** Votes: signed for the keys the wallet gave, with the key of the vote, over its block *)
Theorem C123_vote : forall vhash sign verify pub, (forall sk m, verify (pub sk) m (sign sk m) = true) ->
  forall hash_name timeout conf l, (forall sk pk, In (sk, pk) (keys_given l) -> pub sk = pk) -> forall hash key,
  match sign_vote vhash sign (run hash_name timeout conf l) hash key with
  | Some s => verify key (vhash hash key) s = true
  | None => forall sk, ~ In (sk, key) (keys_given l)
  end.
Proof.
  intros vhash sign verify pub SV hn timeout conf l KP hash key. unfold sign_vote, get_skey, run. rewrite keys_run. cbn [init f_keys]. change (get key []) with (@None N).
  assert (F : forall k m, match first_key k m with Some sk => In (sk, k) m | None => forall sk, ~ In (sk, k) m end).
  { intros k m. induction m as [|[s p] m IH]; cbn; [easy|]. destruct (N.eqb_spec p k) as [->|H]; [now left|]. destruct (first_key k m); [now right|]. intros sk [E|E]; [congruence|now apply (IH sk)]. }
  specialize (F key (keys_given l)). destruct (first_key key (keys_given l)) as [sk|]; [|exact F]. rewrite <- (KP sk key F) at 1. apply SV.
Qed.
Print Assumptions C123_vote.

(** A key is not forgotten, and what is signed with it does not depend on what happens later: neither on the wallet nor on other keys it gives *)
Theorem C123_keys : forall hash_name timeout conf l m vhash sign hash key s,
  sign_vote vhash sign (run hash_name timeout conf l) hash key = Some s -> sign_vote vhash sign (run hash_name timeout conf (l ++ m)) hash key = Some s.
Proof.
  intros hn timeout conf l m vhash sign hash key s. unfold sign_vote, get_skey, run. rewrite fold_left_app. rewrite (keys_run hn timeout key m). now destruct (get key (f_keys (fold_left (step hn timeout) l (init conf)))).
Qed.
Print Assumptions C123_keys.

(** Not so: without an address of its own (no configured one, no account in the wallet) the farmer still signs a block that has a reward and no address: it has a valid signature, but no node accepts it *)
Theorem C123_address_refuted : forall bhash chash sign verify, exists l rnd b out,
  b_amount (b_core b) <> 0 /\ sign_block bhash chash sign (run (fun n => n) 60 None l) rnd b = Some out /\ ~ good_block bhash chash verify out.
Proof.
  intros bhash chash sign verify. exists [(0%Z, Keys [(3, 4)]); (0%Z, Accounts [None])], 0, (mk_block (mk_core [4] 0 1 0 None None None) 0 None 0). eexists.
  split; [easy|]. split; [reflexivity|]. intros [_ [_ [H _]]]. now apply H.
Qed.
Print Assumptions C123_address_refuted.

(** Case: a key, an address, a block of a plot NFT *)
Example C123_ex : exists out, sign_block (fun c => b_rest c + b_nonce c) (fun h s => h + match s with Some s => s | None => 0 end) (fun sk m => 1000 * sk + m)
  (run (fun n => n) 60 None [(0%Z, Keys [(3, 4); (5, 6)]); (0%Z, Keys [(9, 4)]); (1%Z, Accounts [None; Some 8])]) 77 (mk_block (mk_core [4; 6] 2 1 0 None (Some 5) None) 0 None 0) = Some out /\
  b_addr (b_core out) = Some 8 /\ b_account (b_core out) = Some 8 /\ b_sig out = Some 3079.
Proof. eexists. split; [reflexivity|]. repeat split. Qed.
Example C123_block_ex : let sign sk m := 1000 * sk + m in let verify pk m s := s =? 1000 * (pk - 1) + m in let pub sk := sk + 1 in
  (forall sk m, verify (pub sk) m (sign sk m) = true) /\ forall sk pk, In (sk, pk) (keys_given [(0%Z, Keys [(3, 4); (5, 6)])]) -> pub sk = pk.
Proof. split; [intros sk m; cbn zeta; apply N.eqb_eq; rewrite N.add_sub; reflexivity|]. intros sk pk [H|[H|[]]]; now injection H as <- <-. Qed.
