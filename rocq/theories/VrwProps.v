(** C126: the reward for the VDF goes to who is named most often, once per interval *)
Require Import List Arith NArith Bool Lia.
From Verif Require Import VrwModel VrwSpec VrwProofs.
Import ListNotations.
Open Scope N_scope.

(** The winner is the address that is named most often in the blocks of the interval before the block, whatever other blocks are known; ties are broken by the hash with the proof of the oldest of these blocks; there is none only if nobody is named *)
Theorem C126_winner : forall find hash2 interval l i b, chain find l -> nth_error l i = Some b ->
  let from := (i - N.to_nat interval)%nat in let w := named (between from i l) in N.of_nat (length w) < 2 ^ 32 ->
  exists o, nth_error l from = Some o /\ (forall a, winner find hash2 interval b = Some a <-> most (fun a => hash2 a (h_proof o)) w a) /\ (winner find hash2 interval b = None <-> w = []).
Proof. exact winner_spec. Qed.
Print Assumptions C126_winner.

(** In a chain of accepted blocks there are payouts at the ends of the intervals only, each for the blocks since the one before: every block counts for one payout *)
Theorem C126_paid : forall find hash2 interval l, 0 < interval -> chain find l ->
  (forall b, In b (tl l) -> payout_ok find hash2 interval b = true) ->
  (forall k, N.of_nat (length (named (between (k * N.to_nat interval) (k * N.to_nat interval + N.to_nat interval) l))) < 2 ^ 32) ->
  forall i b, nth_error l (S i) = Some b ->
  (N.of_nat (S i) mod interval <> 0 -> h_payout b = None) /\
  (forall k, S i = (S k * N.to_nat interval)%nat -> exists o, nth_error l (k * N.to_nat interval) = Some o /\
     let w := named (between (k * N.to_nat interval) (S i) l) in
     match h_payout b with Some a => most (fun a => hash2 a (h_proof o)) w a | None => w = [] end).
Proof.
  intros find hash2 interval l I C OK W i b N.
  assert (P : payout_ok find hash2 interval b = true). { apply OK. destruct l as [|x l]; [discriminate|]. exact (nth_error_In l i N). }
  unfold payout_ok in P. destruct C as [C1 [C2 C3]]. rewrite (C3 _ _ N) in P. split.
  - intros M. rewrite (proj2 (N.eqb_neq _ _) M) in P. now destruct (h_payout b).
  - intros k E. assert (M : N.of_nat (S i) mod interval = 0). { rewrite E. replace (N.of_nat (S k * N.to_nat interval)) with (N.of_nat (S k) * interval) by lia. apply N.mod_mul. lia. }
    rewrite M, N.eqb_refl in P. specialize (W k). assert (F : (S i - N.to_nat interval)%nat = (k * N.to_nat interval)%nat) by lia.
    replace (k * N.to_nat interval + N.to_nat interval)%nat with (S i) in W by lia. destruct (winner_spec find hash2 interval l (S i) b (conj C1 (conj C2 C3)) N) as [o [O [WA WN]]]; [now rewrite F|].
    rewrite F in *. exists o. split; [exact O|]. cbn zeta. destruct (h_payout b) as [a|], (winner find hash2 interval b) as [a'|]; try discriminate.
    + apply N.eqb_eq in P. subst a'. now apply WA.
    + now apply WN.
Qed.
Print Assumptions C126_paid.

(** All that is paid for the VDF up to a height: the reward times the number of intervals that have ended *)
Theorem C126_total : forall find hash2 interval reward l, 2 <= interval -> chain find l ->
  (forall b, In b (tl l) -> static_ok b = true /\ payout_ok find hash2 interval b = true) ->
  (forall k, N.of_nat (length (named (between (k * N.to_nat interval) (k * N.to_nat interval + N.to_nat interval) l))) < 2 ^ 32) ->
  forall height, (height < length l)%nat ->
  sum (map snd (flat_map (vdf_outputs reward) (firstn height (tl l)))) = (N.of_nat height / interval) * reward.
Proof.
  intros find hash2 interval reward l I C OK W. induction height as [|n IH]; intros L.
  - change (0 = 0 / interval * reward). now rewrite N.div_0_l by lia.
  - destruct (nth_error l (S n)) as [b|] eqn:N; [|apply nth_error_None in N; lia].
    assert (T : nth_error (tl l) n = Some b) by (destruct l; [discriminate|exact N]).
    assert (F : firstn (S n) (tl l) = firstn n (tl l) ++ [b]).
    { clear - T. revert n T. induction (tl l) as [|x r IH]; intros [|n] T; try discriminate; [now injection T as ->|]. change (x :: firstn (S n) r = x :: (firstn n r ++ [b])). f_equal. exact (IH n T). }
    assert (S2 : forall x y, sum (x ++ y) = sum x + sum y) by (induction x as [|a x IHx]; intros y; [reflexivity|]; change (a + sum (x ++ y) = a + sum x + sum y); rewrite IHx; apply N.add_assoc).
    rewrite F, flat_map_app, map_app, S2, IH by lia. cbn [flat_map]. rewrite app_nil_r.
    destruct (C126_paid find hash2 interval l ltac:(lia) C (fun b H => proj2 (OK b H)) W n b N) as [P1 P2].
    pose proof (N.div_mod (N.of_nat (S n)) interval ltac:(lia)) as D. destruct (N.eq_dec (N.of_nat (S n) mod interval) 0) as [M|M].
    + set (q := N.of_nat (S n) / interval) in *. assert (Q : q <> 0) by (intros Q; rewrite Q in D; lia). assert (D' : N.of_nat (S n) = q * interval) by (rewrite M in D; lia).
      assert (E : S n = (S (N.to_nat (q - 1)) * N.to_nat interval)%nat) by (replace (S (N.to_nat (q - 1))) with (N.to_nat q) by lia; rewrite <- N2Nat.inj_mul, <- D'; lia).
      destruct (P2 _ E) as [o [O P]]. assert (QN : N.of_nat n / interval = q - 1). { symmetry. apply (N.div_unique _ _ _ (interval - 1)); [lia|]. nia. }
      rewrite QN. destruct (h_payout b) as [a|] eqn:PB.
      * unfold vdf_outputs. rewrite PB. cbn [map snd sum fold_right]. nia.
      * exfalso. destruct (nth_error l n) as [p|] eqn:NP; [|apply nth_error_None in NP; lia].
        assert (NZ : (1 <= n)%nat) by nia. assert (IP : In p (tl l)). { destruct l as [|x r]; [discriminate|]. destruct n as [|n']; [lia|]. exact (nth_error_In r n' NP). }
        destruct (OK p IP) as [ST _]. unfold static_ok in ST. rewrite andb_true_iff, orb_true_iff, !N.eqb_eq, N.leb_le in ST. destruct C as [_ [_ C3]]. rewrite (C3 _ _ NP) in ST.
        assert (NE : h_addrs p <> []) by (destruct (h_addrs p); [cbn in ST; lia|discriminate]).
        assert (IN : In p (between (N.to_nat (q - 1) * N.to_nat interval) (S n) l)).
        { unfold between. set (f := (N.to_nat (q - 1) * N.to_nat interval)%nat) in *. assert (LE : (f <= n)%nat) by nia. apply (nth_error_In _ (n - f)).
          assert (Z : forall (x : list header) k j, (j < k)%nat -> nth_error (firstn k x) j = nth_error x j) by (induction x as [|y x IHx]; intros [|k] [|j] H; try lia; try easy; cbn; apply IHx; lia).
          rewrite Z by lia. assert (Y : forall (x : list header) k j, nth_error (skipn k x) j = nth_error x (k + j)) by (induction x as [|y x IHx]; intros [|k] j; try easy; [now destruct j|cbn; apply IHx]).
          rewrite Y. now replace (f + (n - f))%nat with n by lia. }
        destruct (h_addrs p) as [|a r] eqn:AP; [easy|]. assert (X : In a (named (between (N.to_nat (q - 1) * N.to_nat interval) (S n) l))) by (apply in_flat_map; exists p; split; [exact IN|]; rewrite AP; now left).
        cbn zeta in P. rewrite P in X. easy.
    + unfold vdf_outputs. rewrite (P1 M). change (sum (map snd [])) with 0. rewrite N.add_0_r. apply (f_equal (fun x => x * reward)). symmetry.
      pose proof (N.mod_lt (N.of_nat (S n)) interval ltac:(lia)) as ML. apply (N.div_unique _ _ _ (N.of_nat (S n) mod interval - 1)); revert D ML M; generalize (N.of_nat (S n) mod interval); generalize (N.of_nat (S n) / interval); clear; intros q r D ML M; [lia|]. remember (interval * q) as z. lia.
Qed.
Print Assumptions C126_total.

(** A block made by the node names who computed its points, and the payout is what others expect *)
Theorem C126_make : forall find hash2 interval prev_hash prev points proof, points <> [] ->
  let b := make_block find hash2 interval prev_hash prev points proof in
  h_prev b = prev_hash /\ h_height b = h_height prev + 1 /\ h_proof b = proof /\
  h_addrs b = map p_addr points /\ static_ok b = true /\ payout_ok find hash2 interval b = true.
Proof.
  intros find hash2 interval ph prev points proof NE b.
  assert (B0 : h_prev b = ph /\ h_height b = h_height prev + 1 /\ h_proof b = proof) by (unfold b, make_block; cbn zeta; now destruct (_ =? 0)). destruct B0 as [B3 [B4 B5]]. split; [exact B3|]. split; [exact B4|]. split; [exact B5|].
  assert (B : h_addrs b = map p_addr points /\ h_count b = N.of_nat (length points)) by (unfold b, make_block; cbn zeta; now destruct (_ =? 0)). destruct B as [B1 B2].
  split; [exact B1|]. split; [unfold static_ok; rewrite B1, B2, map_length, N.eqb_refl, andb_true_r; apply orb_true_iff; right; apply N.leb_le; destruct points; [easy|cbn [length]; lia]|].
  unfold payout_ok, b, make_block. cbn zeta. cbn [h_height h_prev h_count h_output h_addrs h_proof]. destruct ((h_height prev + 1) mod interval =? 0) eqn:M; cbn [h_height h_payout]; rewrite M; [|easy].
  set (x := mk_header _ _ _ _ _ _ None). set (y := mk_header _ _ _ _ _ _ (winner find hash2 interval x)).
  assert (E : winner find hash2 interval y = winner find hash2 interval x).
  { unfold winner. destruct (N.to_nat interval) as [|n]; cbn [collect]; [reflexivity|]. change (h_prev y) with (h_prev x). destruct (find (h_prev x)); reflexivity. }
  rewrite E. destruct (winner find hash2 interval x); [apply N.eqb_refl|easy].
Qed.
Print Assumptions C126_make.

(** The points of an accepted block are known ones, as many as the block says, and lead from the VDF output of the block before to its own *)
Theorem C126_points : forall find hash2 infusion interval tree b, accepted find hash2 infusion interval tree b = true ->
  exists prev points, find (h_prev b) = Some prev /\ N.of_nat (length points) = h_count b /\ (forall p, In p points -> In p tree) /\ linked (h_output prev) points (h_output b).
Proof.
  intros find hash2 infusion interval tree b A. unfold accepted in A. rewrite !andb_true_iff in A. destruct A as [[A _] _]. unfold find_vdf_points in A.
  destruct (find (h_prev b)) as [prev|] eqn:F; [|discriminate]. destruct (back _ _ _ _ _ _) as [[o pts]|] eqn:E; [|discriminate]. destruct (N.eqb_spec o (h_output prev)) as [->|Q]; [|discriminate].
  apply back_spec in E. destruct E as [new [-> [L [T K]]]]. rewrite app_nil_r in *. exists prev, new. split; [easy|]. split; [lia|]. now split.
Qed.
Print Assumptions C126_points.

(** A block made from known points that follow each other is accepted, with just these points: they are the only ones with their outputs *)
Theorem C126_accept : forall find hash2 infusion interval tree prev_hash prev points proof to, points <> [] ->
  find prev_hash = Some prev -> linked (h_output prev) points to ->
  (forall i p, nth_error points i = Some p -> In p tree /\ infusion prev_hash (N.of_nat i) = Some (p_infuse p, p_iters p)) ->
  (forall p q, In p tree -> In q tree -> p_output p = p_output q -> p_infuse p = p_infuse q -> p_iters p = p_iters q -> p = q) ->
  let b := make_block find hash2 interval prev_hash prev points proof in
  accepted find hash2 infusion interval tree b = true /\ find_vdf_points find infusion tree b = points /\ h_output b = to.
Proof.
  intros find hash2 infusion interval tree ph prev points proof to NE F L H U b.
  destruct (C126_make find hash2 interval ph prev points proof NE) as [B1 [_ [_ [_ [B2 B3]]]]]. fold b in B1, B2, B3.
  assert (B4 : h_count b = N.of_nat (length points) /\ h_output b = p_output (last points (mk_point 0 0 0 0 0))) by (unfold b, make_block; cbn zeta; now destruct (_ =? 0)). destruct B4 as [B4 B5].
  assert (TO : h_output b = to). { rewrite B5. destruct points as [|p points _] using rev_ind; [easy|]. rewrite last_last. now apply linked_snoc in L. }
  assert (P : find_vdf_points find infusion tree b = points).
  { unfold find_vdf_points. rewrite B1, F, B4, Nat2N.id, TO. rewrite (back_full infusion tree ph U points (h_output prev) to [] L H). now rewrite N.eqb_refl, app_nil_r. }
  split; [|now split]. unfold accepted. rewrite P, B2, B3. now destruct points.
Qed.
Print Assumptions C126_accept.

(** But that a block names who computed its points is not checked: a farmer can name itself, and is paid, although all points are of another.  (The comment at src/Node_validate.cpp:114 says that find_vdf_points checks this.) *)
Definition genesis : header := mk_header 99 0 0 1000 [] 3 None.
Definition block1 : header := mk_header 0 1 1 1001 [666] 4 None.
Definition block2 : header := mk_header 1 2 1 1002 [666] 5 (Some 666).
Definition find0 (h : N) : option header := match h with 0 => Some genesis | 1 => Some block1 | 2 => Some block2 | _ => None end.
Definition hash0 (a p : N) : N := (a * 7 + p) mod 11.
Definition inf0 (prev offset : N) : option (N * N) := Some (0, 100).
Definition tree0 : list point := [mk_point 1000 1001 0 100 5; mk_point 1001 1002 0 100 5].
Theorem C126_named_refuted : exists find hash2 infusion interval reward tree b1 b2 thief,
  accepted find hash2 infusion interval tree b1 = true /\ accepted find hash2 infusion interval tree b2 = true /\ find (h_prev b2) = Some b1 /\
  (forall p, In p tree -> p_addr p <> thief) /\ h_addrs b1 <> map p_addr (find_vdf_points find infusion tree b1) /\
  In (thief, reward) (vdf_outputs reward b2) /\ 0 < reward.
Proof.
  exists find0, hash0, inf0, 2, 500, tree0, block1, block2, 666. split; [vm_compute; reflexivity|]. split; [vm_compute; reflexivity|]. split; [reflexivity|]. split.
  - intros p [<-|[<-|[]]]; discriminate.
  - split; [vm_compute; discriminate|]. split; [now left|reflexivity].
Qed.
Print Assumptions C126_named_refuted.

(** Cases *)
Example ex_chain : chain find0 [genesis; block1; block2].
Proof.
  split; [|split].
  - intros i b c. destruct i as [|[|[|i]]]; cbn; intros B C; try discriminate; try (injection B as <-; injection C as <-; reflexivity).
  - intros b [= <-]. reflexivity.
  - intros i b. destruct i as [|[|[|i]]]; cbn; intros B; try (injection B as <-; reflexivity); try (now destruct i).
Qed.
Example ex_total : sum (map snd (flat_map (vdf_outputs 500) (firstn 2 (tl [genesis; block1; block2])))) = 500 /\ forallb (fun b => static_ok b && payout_ok find0 hash0 2 b) (tl [genesis; block1; block2]) = true.
Proof. split; vm_compute; reflexivity. Qed.
Definition find1 (h : N) : option header := match h with 0 => Some genesis | 1 => Some (mk_header 0 1 3 0 [8; 9; 8] 4 None) | 2 => Some (mk_header 1 2 3 0 [9; 7; 5] 6 None) | _ => None end.
(** 8 and 9 are named twice each; the hashes with the proof of the oldest block decide *)
Example ex_tie : winner find1 hash0 3 (mk_header 2 3 1 0 [1] 1 None) = Some 9 /\ hash0 8 3 = 4 /\ hash0 9 3 = 0.
Proof. vm_compute. repeat split. Qed.
Example ex_make : h_payout (make_block find1 hash0 3 2 (mk_header 1 2 3 0 [9; 7; 5] 6 None) [mk_point 1 2 0 1 4] 77) = Some 9.
Proof. vm_compute. reflexivity. Qed.
Example ex_accept : linked 1000 tree0 1002 /\ accepted find0 hash0 inf0 2 tree0 (make_block find0 hash0 2 0 genesis tree0 9) = true.
Proof. split; [vm_compute; repeat split|vm_compute; reflexivity]. Qed.
