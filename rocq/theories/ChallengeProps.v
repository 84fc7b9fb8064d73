(** C40: the challenge of a VDF height does not depend on the block from which it is looked up. *)
Require Import List Arith NArith Bool ZArith Lia.
From Verif Require Import ChallengeModel ChallengeSpec ChallengeProofs.
Import ListNotations.
Open Scope N_scope.

(** The lookup from a block of a chain that goes back to genesis always gives the challenge and the difficulty that the chain up to this block defines for the VDF height
    [challenge_delay] before the one that is asked for; it fails exactly if that is more than [max_vdf_count] after the block. *)
Theorem C40_lookup :
  forall next before infuse draws challenge_delay max_vdf_count max_fork_len hardfork2 new_diff get_header b l offset,
    chain_of get_header (fun p x => check_header next infuse draws max_vdf_count max_fork_len hardfork2 new_diff p x = true) (b :: l) ->
    if (offset <=? challenge_delay + max_vdf_count)%nat
    then exists c d, find_challenge next before challenge_delay max_vdf_count get_header b offset = Some (c, d) /\
                     challenge_at next before (b :: l) (Z.of_nat (h_vdf_height b) + Z.of_nat offset - Z.of_nat challenge_delay) c d
    else find_challenge next before challenge_delay max_vdf_count get_header b offset = None.
Proof.
  intros next before infuse draws delay maxv mfl hf2 nd gh b l o H.
  rewrite (find_eq next before infuse draws delay maxv mfl hf2 nd gh b l o H).
  destruct (o <=? delay + maxv)%nat eqn:E.
  - apply Nat.leb_le in E. destruct (delay <? o)%nat eqn:Ed.
    + apply Nat.ltb_lt in Ed. replace (maxv <? o - delay)%nat with false by (symmetry; apply Nat.ltb_ge; lia).
      eexists _, _. split; [reflexivity|].
      replace (Z.of_nat (h_vdf_height b) + Z.of_nat o - Z.of_nat delay)%Z with (Z.of_nat (h_vdf_height b) + Z.of_nat (o - delay))%Z by lia.
      eapply advance_at; exact H.
    + apply Nat.ltb_ge in Ed. destruct (sched next before (b :: l) (delay - o)) as [c d] eqn:Es. exists c, d. split; [reflexivity|].
      replace (Z.of_nat (h_vdf_height b) + Z.of_nat o - Z.of_nat delay)%Z with (Z.of_nat (h_vdf_height b) - Z.of_nat (delay - o))%Z by lia.
      change c with (fst (c, d)). change d with (snd (c, d)) at 2. rewrite <- Es. eapply sched_at; exact H.
  - apply Nat.leb_gt in E. replace (delay <? o)%nat with true by (symmetry; apply Nat.ltb_lt; lia).
    replace (maxv <? o - delay)%nat with true by (symmetry; apply Nat.ltb_lt; lia). reflexivity.
Qed.
Print Assumptions C40_lookup.

(** A chain defines at most one challenge and difficulty for a VDF height. *)
Theorem C40_unique :
  forall next before infuse draws max_vdf_count max_fork_len hardfork2 new_diff get_header chain v c d c' d',
    chain_of get_header (fun p x => check_header next infuse draws max_vdf_count max_fork_len hardfork2 new_diff p x = true) chain ->
    challenge_at next before chain v c d -> challenge_at next before chain v c' d' -> c = c' /\ d = d'.
Proof. intros next before infuse draws maxv mfl hf2 nd gh chain v c d c' d' H. eapply at_unique; exact H. Qed.
Print Assumptions C40_unique.

(** Two blocks [a] and [b] of a chain give the same for a VDF height in reach of both, if none of the blocks after [a] up to [challenge_delay] before the VDF height
    changed the challenge by a space fork.  No such block exists if the VDF height is at most [challenge_delay] after [a]. *)
Theorem C40_agree :
  forall next before infuse draws challenge_delay max_vdf_count max_fork_len hardfork2 new_diff get_header newer a older b rest i j,
    chain_of get_header (fun p x => check_header next infuse draws max_vdf_count max_fork_len hardfork2 new_diff p x = true) (b :: rest) ->
    newer ++ a :: older = b :: rest ->
    (h_vdf_height a + i = h_vdf_height b + j)%nat -> (i <= challenge_delay + max_vdf_count)%nat ->
    (forall x, In x newer -> (h_vdf_height x + challenge_delay <= h_vdf_height a + i)%nat -> h_space_fork x = false) ->
    exists r, find_challenge next before challenge_delay max_vdf_count get_header a i = Some r /\
              find_challenge next before challenge_delay max_vdf_count get_header b j = Some r.
Proof.
  intros next before infuse draws delay maxv mfl hf2 nd gh newer a older b rest i j H E Hv Hi Hf.
  rewrite (find_agree next before infuse draws delay maxv mfl hf2 nd gh newer a older b rest i j E H Hv Hf Hi).
  assert (Hj : (j <= i)%nat).
  { assert (Hin : In a (b :: rest)) by (rewrite <- E; apply in_or_app; right; left; reflexivity).
    destruct Hin as [<-|Hin]; [lia|]. pose proof (heights_below next infuse draws maxv mfl hf2 nd gh rest b H a Hin). lia. }
  pose proof (C40_lookup next before infuse draws delay maxv mfl hf2 nd gh b rest j H) as HL.
  replace (j <=? delay + maxv)%nat with true in HL by (symmetry; apply Nat.leb_le; lia).
  destruct HL as (c & d & HL & _). exists (c, d). split; exact HL.
Qed.
Print Assumptions C40_agree.

(** What a farmer gets from the peak for a block on top of the peak is what the block is verified with, however many VDF heights the block skips; and a block on top of that
    block within the delay is verified with what the farmer got from the peak as well. *)
Theorem C40_verify :
  forall next before infuse draws challenge_delay max_vdf_count max_fork_len hardfork2 new_diff get_header newer peak older b rest,
    chain_of get_header (fun p x => check_header next infuse draws max_vdf_count max_fork_len hardfork2 new_diff p x = true) (b :: rest) ->
    newer ++ peak :: older = b :: rest -> (0 < challenge_delay)%nat ->
    length newer = 1%nat \/ (h_vdf_height b <= h_vdf_height peak + challenge_delay)%nat ->
    exists r, find_challenge next before challenge_delay max_vdf_count get_header peak (h_vdf_height b - h_vdf_height peak) = Some r /\
              find_challenge next before challenge_delay max_vdf_count get_header b 0 = Some r.
Proof.
  intros next before infuse draws delay maxv mfl hf2 nd gh newer peak older b rest H E Hd Hc.
  assert (Hin : In peak (b :: rest)) by (rewrite <- E; apply in_or_app; right; left; reflexivity).
  pose proof (heights_below next infuse draws maxv mfl hf2 nd gh rest b H) as Hb.
  assert (Hle : (h_vdf_height peak <= h_vdf_height b)%nat) by (destruct Hin as [<-|Hin]; [lia | specialize (Hb _ Hin); lia]).
  apply (C40_agree next before infuse draws delay maxv mfl hf2 nd gh newer peak older b rest _ _ H E); [lia | |].
  - destruct Hc as [Hc|Hc]; [|lia]. destruct newer as [|x [|y m]]; try discriminate Hc. cbn [app] in E. injection E as -> <-.
    inversion H as [|b' p' l' Hch Hp Hh Hv]; subst. destruct (check_facts next infuse draws maxv mfl hf2 nd peak b Hv Hh) as (Hcnt & Hvh & _). lia.
  - intros x Hx Hle'. exfalso. destruct Hc as [Hc|Hc].
    + destruct newer as [|y [|z m]]; try discriminate Hc. destruct Hx as [<-|[]]. cbn [app] in E. injection E as -> _. lia.
    + assert (Hgt : (h_vdf_height peak < h_vdf_height x)%nat); [|lia].
      destruct (in_split _ _ Hx) as (m1 & m2 & ->). rewrite <- app_assoc in E. cbn [app] in E.
      pose proof H as H'. rewrite <- E in H'. apply chained_app in H'.
      apply (heights_below next infuse draws maxv mfl hf2 nd gh _ x H'). apply in_or_app. right. left. reflexivity.
Qed.
Print Assumptions C40_verify.

(** The lookup by VDF height goes back from the peak: in reach, it gives what the whole chain defines. *)
Theorem C40_peak :
  forall next before infuse draws challenge_delay max_vdf_count max_history max_fork_len hardfork2 new_diff get_header peak l h,
    chain_of get_header (fun p x => check_header next infuse draws max_vdf_count max_fork_len hardfork2 new_diff p x = true) (peak :: l) ->
    (h <= h_vdf_height peak + max_vdf_count)%nat -> (h_vdf_height peak <= h + max_history)%nat ->
    exists c d, find_challenge_at next before challenge_delay max_vdf_count max_history get_header (Some peak) h = Some (c, d) /\
                challenge_at next before (peak :: l) (Z.of_nat h - Z.of_nat challenge_delay) c d.
Proof.
  intros next before infuse draws delay maxv maxh mfl hf2 nd gh peak l h H H1 H2. unfold find_challenge_at.
  replace (if (h_vdf_height peak <? h)%nat then (maxv <? h - h_vdf_height peak)%nat else (maxh <? h_vdf_height peak - h)%nat) with false
    by (destruct (h_vdf_height peak <? h)%nat eqn:E; symmetry; apply Nat.ltb_ge; lia).
  destruct (walk_ok next infuse draws maxv mfl hf2 nd gh l peak (h_vdf_height peak) h H (le_n _)) as (m & a & r & Hw & E & Ha & Hm).
  rewrite Hw. pose proof H as H'. rewrite E in H'. pose proof (chained_app next infuse draws maxv mfl hf2 nd gh m a r H') as Hca.
  assert (Hreach : (h - h_vdf_height a <= maxv)%nat).
  { destruct m as [|x m] using rev_ind.
    - cbn [app] in E. injection E as -> _. lia.
    - clear IHm. rewrite <- app_assoc in H'. cbn [app] in H'. apply chained_app in H'. inversion H' as [|b' p' l' Hch Hp Hh Hv]; subst.
      destruct (check_facts next infuse draws maxv mfl hf2 nd a x Hv Hh) as (Hc & Hvh & _).
      specialize (Hm x ltac:(apply in_or_app; right; left; reflexivity)). lia. }
  pose proof (C40_lookup next before infuse draws delay maxv mfl hf2 nd gh a r (h - h_vdf_height a) Hca) as HL.
  replace (h - h_vdf_height a <=? delay + maxv)%nat with true in HL by (symmetry; apply Nat.leb_le; lia).
  destruct HL as (c & d & HL & Hat). exists c, d. split; [exact HL|].
  replace (Z.of_nat (h_vdf_height a) + Z.of_nat (h - h_vdf_height a) - Z.of_nat delay)%Z with (Z.of_nat h - Z.of_nat delay)%Z in Hat by lia.
  rewrite E. destruct Hat as [b n Hin Hn Hmax Hs Hdd | g n Hin Hn Hpos Hmin Hs Hdd].
  - apply (at_block _ _ _ _ _ _ b n); [apply in_or_app; right; exact Hin | exact Hn | | exact Hs | exact Hdd].
    intros x Hx Hle. apply in_app_or in Hx. destruct Hx as [Hx|Hx]; [specialize (Hm x Hx); lia | apply (Hmax x Hx Hle)].
  - apply (at_before _ _ _ _ _ _ g n); [apply in_or_app; right; exact Hin | exact Hn | exact Hpos | | exact Hs | exact Hdd].
    intros x Hx. apply in_app_or in Hx. destruct Hx as [Hx|Hx]; [|apply (Hmin x Hx)].
    specialize (Hm x Hx). pose proof (Hmin a (or_introl eq_refl)). lia.
Qed.
Print Assumptions C40_peak.

(** A chain with skipped VDF heights and a space fork: genesis at 0, blocks at 1, 4 (space fork), 5 and 12. *)
Definition ex_next (c : N) : N := (c * 3 + 1) mod 1000003.
Definition ex_before (c : N) : N := (c * 5 + 2) mod 1000003.
Definition ex_infuse (c p : N) : N := (c * 7 + p * 11 + 5) mod 1000003.
Definition ex_draws (c p : N) : bool := p =? 77.
Definition ex_diff (p : header) : N := h_space_diff p + 1.
Definition ex_block (p : header) (hash : N) (count : nat) (entropy : N) : header :=
  let '(c, f) := calc_next_challenge ex_next ex_infuse ex_draws 2048 1000 p count entropy in
  mk_header hash (h_hash p) (h_height p + 1) count (h_vdf_height p + count) c (if f then ex_diff p else h_space_diff p) f
    (if f then N.of_nat count else h_fork_len p + N.of_nat count) entropy.
Definition ex_0 : header := mk_header 100 0 0 0 0 4242 10 false 0 0.
Definition ex_1 : header := ex_block ex_0 101 1 51.
Definition ex_2 : header := ex_block ex_1 102 3 77.
Definition ex_3 : header := ex_block ex_2 103 1 52.
Definition ex_4 : header := ex_block ex_3 104 7 53.
Definition ex_get (h : N) : option header := List.find (fun b => h_hash b =? h) [ex_0; ex_1; ex_2; ex_3; ex_4].
Example C40_case_hyp : chain_of ex_get (fun p x => check_header ex_next ex_infuse ex_draws 100 2048 1000 ex_diff p x = true) [ex_4; ex_3; ex_2; ex_1; ex_0].
Proof.
  repeat (apply chain_block; [| vm_compute; reflexivity | vm_compute; discriminate | vm_compute; reflexivity]).
  apply chain_genesis; vm_compute; reflexivity.
Qed.
(** at VDF height 10 (the challenge of VDF height 4, the block with the space fork): the same from the blocks at 4, 5 and 12 minus 2; and before genesis *)
Example C40_case :
  map (fun x => find_challenge ex_next ex_before 6 100 ex_get (fst x) (snd x)) [(ex_2, 6%nat); (ex_3, 5%nat)] = repeat (Some (own ex_2)) 2 /\
  h_space_fork ex_2 = true /\ h_challenge ex_2 <> repeated ex_next 3 (h_challenge ex_1) /\
  find_challenge ex_next ex_before 6 100 ex_get ex_3 7 = find_challenge ex_next ex_before 6 100 ex_get ex_4 0 /\
  find_challenge ex_next ex_before 6 100 ex_get ex_1 3 = Some (repeated ex_before 2 4242, 10) /\
  find_challenge_at ex_next ex_before 6 100 1000 ex_get (Some ex_4) 10 = Some (own ex_2) /\
  find_challenge ex_next ex_before 6 100 ex_get ex_0 107 = None.
Proof. vm_compute. repeat split; congruence. Qed.

(** Without the condition of C40_agree: a block looks further ahead than the delay, and a space fork comes in between.  The challenge that was given out for VDF height
    10 from the block at 1 is not the one that a block at VDF height 10 is verified with. *)
Theorem C40_agree_refuted :
  exists next before infuse draws challenge_delay max_vdf_count max_fork_len hardfork2 new_diff get_header newer a older b rest i j,
    chain_of get_header (fun p x => check_header next infuse draws max_vdf_count max_fork_len hardfork2 new_diff p x = true) (b :: rest) /\
    newer ++ a :: older = b :: rest /\ (h_vdf_height a + i = h_vdf_height b + j)%nat /\ (i <= challenge_delay + max_vdf_count)%nat /\
    find_challenge next before challenge_delay max_vdf_count get_header a i <> None /\
    find_challenge next before challenge_delay max_vdf_count get_header b j <> None /\
    find_challenge next before challenge_delay max_vdf_count get_header a i <> find_challenge next before challenge_delay max_vdf_count get_header b j.
Proof.
  exists ex_next, ex_before, ex_infuse, ex_draws, 6%nat, 100%nat, 2048, 1000, ex_diff, ex_get, [ex_3; ex_2], ex_1, [ex_0], ex_3, [ex_2; ex_1; ex_0], 9%nat, 5%nat.
  split; [eapply chained_tail; exact C40_case_hyp|]. vm_compute. repeat split; try congruence. repeat constructor.
Qed.
Print Assumptions C40_agree_refuted.
