(** Proofs about votes *)
Require Import List Arith NArith Bool Lia Sorting.Permutation Sorting.Sorted.
From Verif Require Import OrdLib BytesLib EngineModel EngineUpper ForkModel ForkSpec ForkProofs.
Import ListNotations.
Open Scope N_scope.

Definition flagged (l : list (bytes * bool)) : list bytes := map fst (filter snd l).
Lemma lookup_some k l v : lookup k l = Some v -> In (k, v) l.
Proof. induction l as [|(x, w) l IH]; cbn; [discriminate|]. destruct (addr_eqb_spec x k) as [->|]; [intros [= ->]; auto|auto]. Qed.
Lemma mark_keys k l : map fst (mark k l) = map fst l.
Proof. induction l as [|(x, w) l IH]; cbn; auto. destruct (addr_eqb x k); cbn; congruence. Qed.
Lemma mark_length k l : length (mark k l) = length l.
Proof. rewrite <- (map_length fst), mark_keys. apply map_length. Qed.
Lemma mark_flagged k l : lookup k l = Some false -> length (flagged (mark k l)) = S (length (flagged l)) /\ forall x, In x (flagged (mark k l)) <-> x = k \/ In x (flagged l).
Proof.
  unfold flagged. induction l as [|(y, w) l IH]; cbn; [discriminate|]. destruct (addr_eqb_spec y k) as [->|NE].
  - intros [= ->]. cbn. split; [reflexivity|]. intros x. intuition congruence.
  - intros L. destruct (IH L) as (H1 & H2). destruct w; cbn; rewrite ?H1; (split; [reflexivity|]); intros x; rewrite ?H2; intuition congruence.
Qed.
Lemma flagged_incl l x : In x (flagged l) -> In x (map fst l).
Proof. unfold flagged. intros I. apply in_map_iff in I as (y & <- & I). apply filter_In in I as (I & _). now apply in_map. Qed.
Lemma flagged_nodup l : NoDup (map fst l) -> NoDup (flagged l).
Proof.
  unfold flagged. induction l as [|(y, w) l IH]; cbn; intros N; [constructor|]. inversion N as [|? ? NI N']; subst. destruct w; cbn; auto. constructor; auto.
  intros I. apply NI. apply (flagged_incl l). exact I.
Qed.
Lemma flagged_lookup k l : lookup k l = Some true -> In k (flagged l).
Proof. intros L. apply lookup_some in L. unfold flagged. apply in_map_iff. exists (k, true). split; auto. apply filter_In. auto. Qed.
Lemma flagged_none (l : list bytes) : flagged (map (fun k => (k, false)) l) = [].
Proof. unfold flagged. induction l as [|x l IH]; cbn; auto. Qed.

Section VOTES.
  Variables (commit_delay max_history : nat) (max_validators : N) (ok : header -> bool) (vote_ok : vote -> bool) (U : header -> Prop).
  Hypothesis SMALL : max_validators < 2 ^ 32.
  Lemma insert_key_nodup k l : NoDup l -> NoDup (insert_key k l).
  Proof. unfold insert_key. intros N. destruct (member k l) eqn:M; auto. constructor; auto. intros I. apply member_in in I. congruence. Qed.
  Lemma insert_key_in k l x : In x (insert_key k l) <-> x = k \/ In x l.
  Proof. unfold insert_key. destruct (member k l) eqn:M; cbn; [|intuition congruence]. apply member_in in M. intuition congruence. Qed.
  Lemma collect_ok n rounds : forall b set, NoDup set -> N.of_nat (length set) <= max_validators ->
    let l := collect max_validators n rounds b set in NoDup l /\ N.of_nat (length l) <= max_validators.
  Proof.
    induction rounds as [|r IH]; intros b set N L; cbn; auto. destruct b as [b|]; auto. destruct (N.of_nat (length set) <? max_validators) eqn:E; auto. apply N.ltb_lt in E.
    apply IH; [destruct (h_farmer b); auto using insert_key_nodup|]. destruct (h_farmer b) as [k|]; auto. unfold insert_key. destruct (member k set); cbn [length]; lia.
  Qed.
  Definition headers_in (n : node) : Prop := U (n_root n) /\ Forall U (n_main n) /\ Forall U (n_stored n) /\ forall f, In f (n_forks n) -> U (f_block f).
  Lemma get_header_in n h p : headers_in n -> get_header n h = Some p -> U p /\ h_hash p = h.
  Proof.
    intros (_ & _ & US & UF). unfold get_header. destruct (find_fork (n_forks n) h) as [f|] eqn:F.
    - intros [= <-]. apply find_fork_some in F as (I & E). split; auto.
    - unfold find_header. intros FB. apply find_some in FB as (I & E). destruct (addr_eqb_spec (h_hash p) h); [|discriminate]. split; auto. rewrite Forall_forall in US. auto.
  Qed.
  Lemma find_prev_back n b d a : headers_in n -> find_prev n (Some b) d = Some a -> back U d b a.
  Proof.
    intros H. revert b. induction d as [|d IH]; cbn [find_prev]; intros b E; [injection E as <-; constructor|].
    destruct (get_header n (h_prev b)) as [p|] eqn:G; [|destruct d; discriminate]. destruct (get_header_in _ _ _ H G) as (UP & EP). eapply back_more; eauto.
  Qed.
  Lemma collect_back n rounds : headers_in n -> forall b set k, In k (collect max_validators n rounds (Some b) set) ->
    In k set \/ exists d a, (d < rounds)%nat /\ back U d b a /\ h_farmer a = Some k.
  Proof.
    intros H. induction rounds as [|r IH]; intros b set k I; cbn [collect] in I; auto. destruct (_ <? _); auto.
    assert (STEP : In k (match h_farmer b with Some f => insert_key f set | None => set end) -> In k set \/ exists d a, (d < S r)%nat /\ back U d b a /\ h_farmer a = Some k).
    { destruct (h_farmer b) as [f|] eqn:F; auto. rewrite insert_key_in. intros [->|]; auto. right. exists 0%nat, b. split; [lia|]. split; [constructor|auto]. }
    destruct (get_header n (h_prev b)) as [p|] eqn:G.
    - destruct (IH p _ k I) as [X|(d & a & LT & BA & FA)]; auto. right. destruct (get_header_in _ _ _ H G) as (UP & EP). exists (S d), a. split; [lia|]. split; auto. eapply back_more; eauto.
    - destruct r; cbn in I; auto.
  Qed.
  Lemma back_app d e b a c : back U d b a -> back U e a c -> back U (d + e) b c.
  Proof. induction 1; cbn; auto. intros. eapply back_more; eauto. Qed.
  Lemma validators_back n b k : headers_in n -> In k (get_validators commit_delay max_history max_validators n b) ->
    exists d a, (commit_delay <= d < commit_delay + max_history)%nat /\ back U d b a /\ h_farmer a = Some k.
  Proof.
    intros H I. unfold get_validators in I. destruct (find_prev n (Some b) commit_delay) as [p|] eqn:F.
    - apply find_prev_back in F; auto. destruct (collect_back n max_history H p [] k I) as [[]|(d & a & LT & BA & FA)]. exists (commit_delay + d)%nat, a. split; [lia|]. split; auto. eapply back_app; eauto.
    - destruct max_history; contradiction.
  Qed.

  (** what is true of the votes of a fork; [pub]: the votes that were published *)
  Record counted (pub : list vote) (f : fork) : Prop := mk_counted {
    c_nodup : NoDup (map fst (f_validators f));
    c_size : N.of_nat (length (f_validators f)) <= max_validators;
    c_votes : f_votes f = N.of_nat (length (flagged (f_validators f)));
    c_real : forall k, In k (flagged (f_validators f)) -> exists v, In v pub /\ v_hash v = f_hash f /\ v_key v = k /\ vote_ok v = true;
    c_back : forall k, In k (map fst (f_validators f)) -> exists d a, (commit_delay <= d < commit_delay + max_history)%nat /\ back U d (f_block f) a /\ h_farmer a = Some k;
    c_fresh : f_proof f = false -> f_validators f = [] }.
  Definition keeps_votes (f f' : fork) : Prop := f_block f' = f_block f /\ f_proof f' = f_proof f /\ f_votes f' = f_votes f /\ f_validators f' = f_validators f.
  Lemma keeps_refl f : keeps_votes f f.
  Proof. repeat split. Qed.
  Lemma keeps_trans f g h : keeps_votes f g -> keeps_votes g h -> keeps_votes f h.
  Proof. intros (A & B & C & D) (A' & B' & C' & D'). repeat split; congruence. Qed.
  Lemma counted_keeps pub f f' : keeps_votes f f' -> counted pub f -> counted pub f'.
  Proof. intros (A & B & C & D) [C1 C2 C3 C4 C5 C6]. constructor; unfold f_hash in *; rewrite ?A, ?B, ?C, ?D; auto. Qed.
  Lemma counted_more pub pub' f : incl pub pub' -> counted pub f -> counted pub' f.
  Proof. intros I [C1 C2 C3 C4 C5 C6]. constructor; auto. intros k K. destruct (C4 k K) as (v & ? & ?). eauto. Qed.
  Definition keeps_all (fs fs' : list fork) : Prop := Forall2 keeps_votes fs fs'.
  Lemma keeps_all_refl fs : keeps_all fs fs.
  Proof. induction fs; constructor; auto using keeps_refl. Qed.
  Lemma keeps_all_trans a b c : keeps_all a b -> keeps_all b c -> keeps_all a c.
  Proof. unfold keeps_all. intros F. revert c. induction F; intros c G; inversion G; subst; constructor; eauto using keeps_trans. Qed.
  Lemma keeps_modify fs h g : (forall f, In f fs -> f_hash f = h -> keeps_votes f (g f)) -> keeps_all fs (modify h g fs).
  Proof. intros K. apply modify_forall2; auto using keeps_refl. Qed.

  Record good (n : node) : Prop := mk_good {
    gd_in : headers_in n;
    gd_nodup : NoDup (map f_hash (n_forks n));
    gd_votes : forall f, In f (n_forks n) -> counted (n_published n) f;
    gd_queue : Forall (fun v => vote_ok v = true) (n_queue n) }.
  Lemma keeps_hash fs fs' : keeps_all fs fs' -> map f_hash fs' = map f_hash fs.
  Proof. induction 1 as [|? ? ? ? (E & _)]; cbn; auto. unfold f_hash at 1 3. rewrite E. congruence. Qed.
  Lemma good_keeps n n' : good n -> keeps_all (n_forks n) (n_forks n') -> n_published n' = n_published n -> n_queue n' = n_queue n ->
    U (n_root n') -> Forall U (n_main n') -> Forall U (n_stored n') -> good n'.
  Proof.
    intros [(G1 & G2 & G3 & G4) GN GV GQ] K P Q UR UM US. constructor.
    - split; [auto|]. split; [auto|]. split; [auto|]. intros f I. destruct (Forall2_in_r _ _ _ _ K I) as (g & IG & (E & _)). rewrite E. auto.
    - now rewrite (keeps_hash _ _ K).
    - intros f I. rewrite P. destruct (Forall2_in_r _ _ _ _ K I) as (g & IG & KV). eapply counted_keeps; eauto.
    - now rewrite Q.
  Qed.
  (** the parts of a round *)
  Lemma connect_keeps root connected fs h : NoDup (map f_hash fs) -> keeps_all fs (connect root connected fs h).
  Proof.
    intros N. unfold connect. destruct (find_fork fs h) as [f|] eqn:F; [|apply keeps_all_refl]. apply find_fork_some in F as (IF & EF). apply keeps_modify. intros x I E.
    assert (x = f) as -> by (eapply nodup_inj; eauto; congruence). destruct (_ =? _); [repeat split|]. destruct (lock fs _); repeat split.
  Qed.
  Lemma connect_fold root connected L : forall fs, NoDup (map f_hash fs) -> keeps_all fs (fold_left (connect root connected) L fs).
  Proof.
    induction L as [|h L IH]; intros fs N; cbn [fold_left]; [apply keeps_all_refl|]. pose proof (connect_keeps root connected fs h N) as K. eapply keeps_all_trans; eauto. apply IH. now rewrite (keeps_hash _ _ K).
  Qed.
  Lemma verify_good connected check n : good n -> good (verify_block_proofs commit_delay max_history max_validators connected check n).
  Proof.
    intros G. unfold verify_block_proofs. set (fs := fold_left _ _ _). pose proof (connect_fold (n_root n) connected (map f_hash (n_forks n)) _ (gd_nodup _ G)) as K. fold fs in K. clearbody fs.
    assert (G1 : good (set_forks n fs)) by (apply (good_keeps n); auto; apply G). clear G K. destruct G1 as [HI N V Q]. cbn [set_forks n_forks n_queue n_published] in *. set (n1 := set_forks n fs) in *.
    assert (B : forall f, f_block (verify_task commit_delay max_history max_validators n1 check f) = f_block f).
    { intros f. unfold verify_task. destruct (_ || _); auto. destruct (check _) as [[]|]; auto. }
    constructor; cbn [set_forks n_forks n_queue n_published]; auto.
    - destruct HI as (H1 & H2 & H3 & H4). split; [auto|]. split; [auto|]. split; [auto|]. cbn [set_forks n_forks] in *. intros f I. apply in_map_iff in I as (g & <- & I). rewrite B. auto.
    - rewrite map_map. unfold f_hash in *. erewrite map_ext; [exact N|]. intros f. cbn. now rewrite B.
    - intros f I. apply in_map_iff in I as (g & <- & I). specialize (V g I). unfold verify_task. destruct (negb (f_connected g) || f_invalid g || f_proof g) eqn:E; auto.
      apply orb_false_iff in E as (_ & E). destruct V as [C1 C2 C3 C4 C5 C6]. specialize (C6 E). rewrite C6 in *.
      destruct (check (f_block g)) as [[]|]; auto; constructor; unfold f_hash; cbn [f_validators f_votes f_block f_proof]; rewrite ?C6, ?flagged_none; auto; try discriminate.
      + rewrite map_map. cbn. rewrite map_id. apply collect_ok; [constructor|cbn; lia].
      + rewrite map_length. apply collect_ok; [constructor|cbn; lia].
      + rewrite map_map. cbn. rewrite map_id. intros k K. eapply validators_back; eauto.
  Qed.
  Lemma vote_good best late n v : good n -> vote_ok v = true -> good (verify_vote best late n v).
  Proof.
    intros G OK. unfold verify_vote. destruct (late v); auto.
    assert (KEEP : good (mk_node (n_root n) (n_forks n) (n_main n) (n_stored n) (n_queue n ++ [v]) (n_published n))).
    { destruct G as [G1 G2 G3 G4]. constructor; cbn; auto. apply Forall_app. auto. }
    destruct (find_fork (n_forks n) (v_hash v)) as [f|] eqn:F; auto. destruct (f_proof f) eqn:P; auto. destruct (negb (best (f_block f))); auto.
    destruct (lookup (v_key v) (f_validators f)) as [[]|] eqn:L; auto. pose proof (find_fork_some _ _ _ F) as (IF & EF). destruct G as [(H1 & H2 & H3 & H4) N V Q]. clear KEEP.
    match goal with |- good (mk_node _ (modify _ (fun _ => ?x) _) _ _ _ _) => set (f' := x) end.
    constructor; cbn [n_forks n_queue n_published]; auto.
    - split; [auto|]. split; [auto|]. split; [auto|]. cbn [n_forks]. intros x I. apply in_modify in I as [(I & _)|(y & I & _ & ->)]; [auto|]. cbn. auto.
    - rewrite modify_hash; auto.
    - intros x I. apply in_modify in I as [(I & _)|(y & I & EY & ->)]; [apply (counted_more (n_published n)); [intros z; cbn; auto|auto]|].
      specialize (V f IF). destruct V as [C1 C2 C3 C4 C5 C6]. destruct (mark_flagged _ _ L) as (M1 & M2). constructor; cbn [f' f_validators f_votes f_block f_proof].
      + now rewrite mark_keys. + now rewrite mark_length.
      + rewrite M1, C3. rewrite N.mod_small; [lia|].
        assert (LE : (length (flagged (mark (v_key v) (f_validators f))) <= length (f_validators f))%nat).
        { rewrite <- (mark_length (v_key v)). unfold flagged. rewrite map_length. generalize (mark (v_key v) (f_validators f)) as l. clear. induction l as [|x l IH]; cbn; auto. destruct (snd x); cbn; lia. }
        rewrite M1 in LE. lia.
      + intros k K. apply M2 in K as [->|K]; [exists v; cbn; auto|]. destruct (C4 k K) as (w & ? & ?). exists w. split; [cbn; auto|]. exact H0.
      + rewrite mark_keys. exact C5. + congruence.
  Qed.
  Lemma votes_good best late n : good n -> good (verify_votes best late n).
  Proof.
    intros G. unfold verify_votes. pose proof (gd_queue _ G) as Q. set (n0 := mk_node (n_root n) (n_forks n) (n_main n) (n_stored n) [] (n_published n)).
    assert (G0 : good n0) by (destruct G as [A B C D]; constructor; cbn; auto). clearbody n0. clear G. revert n0 G0. induction Q as [|v q V Q IH]; intros n0 G0; cbn [fold_left]; auto. apply IH. now apply vote_good.
  Qed.
  Lemma inherit_keeps n fs f : keeps_votes f (inherit n fs f).
  Proof. unfold inherit. destruct (_ =? _); [repeat split|]. destruct (lock _ _); repeat split. Qed.
  Lemma best_keeps waiting n L : forall acc, NoDup (map f_hash (fst acc)) -> keeps_all (fst acc) (fst (fold_left (best_step waiting n) L acc)).
  Proof.
    induction L as [|h L IH]; intros acc N; cbn [fold_left]; [apply keeps_all_refl|].
    assert (K : keeps_all (fst acc) (fst (best_step waiting n acc h))).
    { unfold best_step. destruct (find_fork (fst acc) h) as [f|] eqn:F; [|apply keeps_all_refl]. destruct (_ <? _); [|apply keeps_all_refl]. apply find_fork_some in F as (IF & EF). cbn [fst]. apply keeps_modify.
      intros x I E. assert (x = f) as -> by (eapply nodup_inj; eauto; congruence). apply inherit_keeps. }
    eapply keeps_all_trans; eauto. apply IH. now rewrite (keeps_hash _ _ K).
  Qed.
  Lemma good_forks n fs : good n -> keeps_all (n_forks n) fs -> good (set_forks n fs).
  Proof. intros G K. apply (good_keeps n); auto; apply G. Qed.
  Lemma apply_good L : forall n, good n -> good (fst (apply_line ok L n)).
  Proof.
    induction L as [|h L IH]; intros n G; cbn [apply_line]; auto. destruct (find_fork (n_forks n) h) as [f|] eqn:F; auto. apply find_fork_some in F as (IF & EF).
    assert (AB : forall n, good n -> In f (n_forks n) \/ U (f_block f) -> good (apply_block (f_block f) n)).
    { intros m GM I. assert (UB : U (f_block f)) by (destruct I; auto; now apply (gd_in _ GM)). apply (good_keeps m); cbn; auto using keeps_all_refl; try constructor; auto; apply GM. }
    assert (UB : U (f_block f)) by now apply (gd_in _ G).
    destruct (negb _); auto. destruct (f_validated f); [apply IH; auto|]. destruct (validate ok n (f_block f)).
    - apply IH. apply AB; auto. apply good_forks; auto. apply keeps_modify. intros; repeat split.
    - cbn [fst]. apply good_forks; auto. apply keeps_modify. intros; repeat split.
  Qed.
  Lemma revert_good h n : good n -> good (revert h n).
  Proof.
    intros G. apply (good_keeps n); cbn; auto using keeps_all_refl; try apply G. destruct (gd_in _ G) as (_ & UM & _). rewrite Forall_forall in *. intros x I. apply filter_In in I as (I & _). auto.
  Qed.
  Lemma walk_root_in n : headers_in n -> forall fuel b acc p l, match b with Some b => U b | None => True end -> Forall U acc -> walk_root n fuel b acc = Some (p, l) -> Forall U l.
  Proof.
    intros H. induction fuel as [|k IH]; intros b acc p l UB UA E; cbn in E; [discriminate|]. destruct b as [b|]; [|discriminate]. destruct (existsb _ _); [injection E as <- <-; auto|].
    apply (IH (get_header n (h_prev b)) (b :: acc) p l); auto. destruct (get_header n (h_prev b)) as [q|] eqn:G; auto. apply (get_header_in _ _ _ H G).
  Qed.
  Lemma apply_root_good proof_ok l : forall n n', good n -> Forall U l -> apply_root ok l proof_ok n = Some n' -> good n'.
  Proof.
    induction l as [|b l IH]; intros n n' G UL E; cbn in E; [injection E as <-; auto|]. destruct (_ && _); [|discriminate]. inversion UL; subst.
    apply (IH (apply_block b n)); auto. apply (good_keeps n); cbn; auto using keeps_all_refl; try constructor; auto; apply G.
  Qed.
  Definition good_outcome (o : outcome) : Prop := match o with Done n | Rejected n => good n | _ => True end.
  Lemma switch_good proof_ok n f : good n -> good_outcome (switch ok proof_ok n f).
  Proof.
    intros G. unfold switch. destruct (fork_line n (Some f)) as [[|first rest]|]; [exact G| |exact I]. set (line := first :: rest).
    assert (GO : forall m, good m -> good_outcome (let (n, b) := apply_line ok (map f_hash line) m in if b then Done n else Rejected n)).
    { intros m GM. pose proof (apply_good (map f_hash line) m GM) as X. destruct (apply_line ok (map f_hash line) m) as (x, []); exact X. }
    destruct (addr_eqb (h_prev (f_block first)) (h_hash (n_root n))).
    - destruct (fork_line n None) as [main|]; [|exact I]. cbv zeta. apply GO. destruct (addr_eqb _ _); auto using revert_good.
    - destruct (get_header n (h_prev (f_block first))) as [r|] eqn:GR; [|exact I]. destruct (walk_root _ _ _ _) as [(p, l)|] eqn:W; [|exact I].
      pose proof (get_header_in _ _ _ (gd_in _ G) GR) as (UR & _). apply (walk_root_in n (gd_in _ G)) in W; auto.
      destruct (apply_root _ _ _ _) as [m|] eqn:AR; [|exact I]. apply apply_root_good in AR; auto using revert_good. apply GO. apply (good_keeps m); cbn; auto using keeps_all_refl; apply AR.
  Qed.
  Lemma switch_back_good proof_ok h n : good n -> good_outcome (switch_back ok proof_ok h n).
  Proof.
    intros G. unfold switch_back. destruct (addr_eqb h (state_hash n)); [exact G|]. destruct (find_fork (n_forks n) h); [now apply switch_good|]. destruct (addr_eqb _ _); cbn; auto using revert_good.
  Qed.
  Lemma choose_good waiting proof_ok fuel : forall n n', good n -> choose_peak ok fuel waiting proof_ok n = Some n' -> good n'.
  Proof.
    induction fuel as [|k IH]; intros n n' G E; cbn [choose_peak] in E; [discriminate|].
    pose proof (best_keeps waiting n (map f_hash (n_forks n)) (n_forks n, None) (gd_nodup _ G)) as K. unfold find_best_fork in E. destruct (fold_left _ _ _) as (fs, best). cbn [fst] in K.
    pose proof (good_forks n fs G K) as G1. destruct best as [f|]; [|injection E as <-; auto]. destruct (addr_eqb (f_hash f) (state_hash (set_forks n fs))); [injection E as <-; auto|].
    assert (AG : forall m, good m -> choose_peak ok k waiting proof_ok (set_forks m (modify (f_hash f) set_invalid (n_forks m))) = Some n' -> good n').
    { intros m GM. apply IH. apply good_forks; auto. apply keeps_modify. intros; repeat split. }
    pose proof (switch_good proof_ok _ f G1) as SG. destruct (switch ok proof_ok (set_forks n fs) f) as [m|m| |]; cbn in SG; [injection E as <-; auto| |eauto|discriminate].
    pose proof (switch_back_good proof_ok (state_hash (set_forks n fs)) m SG) as BG. destruct (switch_back _ _ _ _); try discriminate. eauto.
  Qed.
  Lemma commit_good b n : good n -> U b -> good (commit b n).
  Proof.
    intros [(H1 & H2 & H3 & H4) N V Q] UB. constructor; cbn; auto.
    - split; [auto|]. split; [auto|]. split; cbn.
      + constructor; auto. apply Forall_app. split; auto. apply Forall_forall. intros x I. apply in_map_iff in I as (f & <- & I). apply filter_In in I as (I & _). apply filter_In in I as (I & _). auto.
      + intros f I. apply filter_In in I as (I & _). auto.
    - revert N. generalize (n_forks n) as fs. clear. induction fs as [|f fs IH]; cbn; auto. intros N. inversion N as [|? ? NI N']; subst. destruct (f_height f =? h_height b); cbn; auto. constructor; auto.
      intros I. apply NI. apply in_map_iff in I as (x & E & I). apply filter_In in I as (I & _). rewrite <- E. now apply in_map.
    - intros f I. apply filter_In in I as (I & _). auto.
  Qed.
  Lemma commit_line_good peak delay may l : forall n, good n -> Forall U l -> good (commit_line peak delay may l n).
  Proof. induction l as [|b l IH]; intros n G UL; cbn; auto. destruct (_ && _); auto. inversion UL; subst. apply IH; auto. now apply commit_good. Qed.
  Lemma walk_line_in n fuel : forall f acc l, match f with Some f => In f (n_forks n) | None => True end -> (forall x, In x acc -> In x (n_forks n)) -> walk_line n fuel f acc = Some l -> forall x, In x l -> In x (n_forks n).
  Proof.
    induction fuel as [|k IH]; intros f acc l IF IA E; cbn in E; [discriminate|]. destruct f as [f|]; [|discriminate]. destruct (_ && _).
    - injection E as <-. intros x [<-|I]; auto.
    - apply (IH (lock (n_forks n) (f_prev f)) (f :: acc) l); auto; [|intros x [<-|I]; auto]. unfold lock. destruct (f_prev f); auto. destruct (find_fork (n_forks n) b) eqn:F; auto. apply find_fork_some in F. tauto.
  Qed.
  Lemma advance_good w n n' : good n -> advance commit_delay max_history max_validators ok w n = Some n' -> good n'.
  Proof. intros G. unfold advance. apply choose_good. apply votes_good. now apply verify_good. Qed.
  Lemma update_good w n n' : good n -> update commit_delay max_history max_validators ok w n = Some n' -> good n'.
  Proof.
    intros G. unfold update. destruct (advance _ _ _ _ _ _) as [m|] eqn:A; [|discriminate]. apply advance_good in A; auto. destruct (n_main m) as [|peak tl]; [intros [= <-]; auto|].
    destruct (_ <? _); [|intros [= <-]; auto]. destruct (fork_line m _) as [line|] eqn:L; [|discriminate]. intros [= <-]. apply commit_line_good; auto. apply Forall_forall. intros b I. apply in_map_iff in I as (f & <- & I).
    apply (gd_in _ A). unfold fork_line in L. destruct (find_fork (n_forks m) (h_hash peak)) as [g|] eqn:F.
    - apply (walk_line_in m (S (length (n_forks m))) (Some g) [] line); [apply (find_fork_some _ _ _ F)|contradiction|exact L|exact I].
    - destruct (addr_eqb _ _); [injection L as <-; contradiction|]. apply (walk_line_in m (S (length (n_forks m))) (find_fork (n_forks m) (state_hash m)) [] line); [|contradiction|exact L|exact I]. destruct (find_fork (n_forks m) (state_hash m)) eqn:F2; auto. apply (find_fork_some _ _ _ F2).
  Qed.
  Lemma add_good b n : good n -> U b -> good (add_block b n).
  Proof.
    intros G UB. unfold add_block. destruct (_ <=? _).
    - apply (good_keeps n); cbn; auto using keeps_all_refl; try constructor; auto; apply G.
    - destruct (find_fork (n_forks n) (h_hash b)) as [f|] eqn:F; auto. destruct G as [(H1 & H2 & H3 & H4) N V Q]. match goal with |- context [insert_fork ?x _] => set (f := x) end.
      constructor; cbn; auto.
      + split; [auto|]. split; [auto|]. split; [auto|]. cbn. intros x I. apply in_insert in I as [->|I]; auto.
      + apply insert_nodup; auto. intros g I. apply (find_fork_none _ _ g F I).
      + intros x I. apply in_insert in I as [->|I]; auto. constructor; cbn; auto; try contradiction; [constructor|lia].
  Qed.
  Lemma handle_good best late v n : good n -> good (handle_vote vote_ok best late v n).
  Proof.
    intros G. unfold handle_vote. destruct (vote_ok v) eqn:E; auto. apply votes_good. destruct G as [A B C D]. constructor; cbn; auto. apply Forall_app. auto.
  Qed.
  Lemma run_good n : run commit_delay max_history max_validators ok vote_ok U n -> good n.
  Proof.
    induction 1 as [root older UR UO|b n R IH UB|best late v n R IH|w n n' R IH E].
    - constructor; cbn; auto; [|constructor|contradiction]. split; [auto|]. cbn. split; [auto|]. split; auto. contradiction.
    - now apply add_good. - now apply handle_good. - now apply update_good in E.
  Qed.
  (** ** While the root stays the same no fork is lost *)
  Record exact (n : node) : Prop := mk_exact {
    x_flag : forall v, In v (n_published n) -> exists f, In f (n_forks n) /\ f_hash f = v_hash v /\ In (v_key v) (flagged (f_validators f));
    x_once : NoDup (map (fun v => (v_hash v, v_key v)) (n_published n)) }.
  Definition flags_kept (f f' : fork) : Prop := f_block f' = f_block f /\ incl (flagged (f_validators f)) (flagged (f_validators f')).
  Lemma exact_kept n n' : exact n -> Forall2 flags_kept (n_forks n) (n_forks n') -> n_published n' = n_published n -> exact n'.
  Proof.
    intros [X1 X2] K P. constructor; rewrite P; auto. intros v I. destruct (X1 v I) as (f & IF & EF & KF). destruct (Forall2_in_l _ _ _ _ K IF) as (f' & IF' & (B & C)). exists f'. split; auto. unfold f_hash. rewrite B. split; auto.
  Qed.
  Lemma keeps_flags fs fs' : keeps_all fs fs' -> Forall2 flags_kept fs fs'.
  Proof. induction 1 as [|f f' fs fs' (A & B & C & D) _ IH]; constructor; auto. split; auto. rewrite D. apply incl_refl. Qed.
  Lemma verify_exact connected check n : good n -> exact n -> exact (verify_block_proofs commit_delay max_history max_validators connected check n).
  Proof.
    intros G X. unfold verify_block_proofs. set (fs := fold_left _ _ _). pose proof (connect_fold (n_root n) connected (map f_hash (n_forks n)) _ (gd_nodup _ G)) as K. fold fs in K. clearbody fs.
    assert (G1 : good (set_forks n fs)) by (apply good_forks; auto).
    assert (X1 : exact (set_forks n fs)) by (apply (exact_kept n); auto; now apply keeps_flags). apply (exact_kept (set_forks n fs)); auto. cbn [set_forks n_forks].
    pose proof (gd_votes _ G1) as V. cbn [set_forks n_forks n_published] in V. set (n1 := set_forks n fs) in *. clearbody n1. clear - V. induction fs as [|f fs IH]; cbn [map]; constructor.
    - unfold verify_task. destruct (negb (f_connected f) || f_invalid f || f_proof f) eqn:E; [split; [auto|apply incl_refl]|]. apply orb_false_iff in E as (_ & E).
      pose proof (c_fresh _ _ (V f ltac:(cbn; auto)) E) as VN. destruct (check (f_block f)) as [[]|]; (split; [auto|]); cbn [f_validators]; rewrite ?VN; try apply incl_refl. intros x [].
    - apply IH. intros; apply V; cbn; auto.
  Qed.
  Lemma lookup_false k l : NoDup (map fst l) -> lookup k l = Some false -> ~ In k (flagged l).
  Proof.
    unfold flagged. induction l as [|(x, w) l IH]; cbn; intros N L; [discriminate|]. inversion N as [|? ? NI N']; subst. destruct (addr_eqb_spec x k) as [->|NE].
    - injection L as ->. cbn. intros I. apply NI. apply (flagged_incl l). exact I.
    - destruct w; cbn; [intros [E|I]; [contradiction|]; exact (IH N' L I)|auto].
  Qed.
  Lemma vote_exact best late n v : good n -> exact n -> exact (verify_vote best late n v).
  Proof.
    intros G X. unfold verify_vote. destruct (late v); auto.
    assert (KEEP : exact (mk_node (n_root n) (n_forks n) (n_main n) (n_stored n) (n_queue n ++ [v]) (n_published n))) by (destruct X; constructor; auto).
    destruct (find_fork (n_forks n) (v_hash v)) as [f|] eqn:F; auto. destruct (f_proof f) eqn:P; auto. destruct (negb (best (f_block f))); auto.
    destruct (lookup (v_key v) (f_validators f)) as [[]|] eqn:L; auto. pose proof (find_fork_some _ _ _ F) as (IF & EF). clear KEEP. destruct (mark_flagged _ _ L) as (M1 & M2). destruct X as [X1 X2]. pose proof (gd_nodup _ G) as N.
    pose proof (lookup_false _ _ (c_nodup _ _ (gd_votes _ G f IF)) L) as NL.
    match goal with |- exact (mk_node _ (modify _ (fun _ => ?x) _) _ _ _ _) => set (f' := x) end.
    assert (IF' : In f' (modify (v_hash v) (fun _ => f') (n_forks n))) by (exact (in_modify_same (v_hash v) (fun _ => f') (n_forks n) f IF EF)).
    constructor; cbn [n_forks n_published map].
    - intros w [<-|I].
      + exists f'. split; auto. split; [exact EF|]. cbn [f' f_validators]. apply M2. auto.
      + destruct (X1 w I) as (g & IG & EG & KG). destruct (addr_eqb_spec (f_hash g) (v_hash v)) as [E|NE].
        * assert (g = f) by (eapply nodup_inj; eauto; congruence). subst g. exists f'. split; auto. split; [exact EG|]. cbn [f' f_validators]. apply M2. auto.
        * exists g. split; [apply in_modify_other; auto|auto].
    - constructor; auto. intros I. apply in_map_iff in I as (w & E & I). injection E as E1 E2. destruct (X1 w I) as (g & IG & EG & KG). assert (g = f) by (eapply nodup_inj; eauto; congruence). subst g. congruence.
  Qed.
  Lemma votes_exact best late n : good n -> exact n -> exact (verify_votes best late n).
  Proof.
    intros G X. unfold verify_votes. pose proof (gd_queue _ G) as Q. set (n0 := mk_node (n_root n) (n_forks n) (n_main n) (n_stored n) [] (n_published n)).
    assert (G0 : good n0) by (destruct G as [A B C D]; constructor; cbn; auto). assert (X0 : exact n0) by (destruct X; constructor; auto). clearbody n0. clear G X. revert n0 G0 X0.
    induction Q as [|v q V Q IH]; intros n0 G0 X0; cbn [fold_left]; auto. apply IH; [now apply vote_good|now apply vote_exact].
  Qed.
  (** the rest changes no votes *)
  Definition same_votes (n n' : node) : Prop := keeps_all (n_forks n) (n_forks n') /\ n_published n' = n_published n.
  Lemma same_refl n : same_votes n n.
  Proof. split; auto using keeps_all_refl. Qed.
  Lemma same_trans a b c : same_votes a b -> same_votes b c -> same_votes a c.
  Proof. intros (K & P) (K' & P'). split; [eapply keeps_all_trans; eauto|congruence]. Qed.
  Lemma apply_same L : forall n, same_votes n (fst (apply_line ok L n)).
  Proof.
    induction L as [|h L IH]; intros n; cbn [apply_line]; [apply same_refl|]. destruct (find_fork (n_forks n) h) as [f|]; [|apply same_refl].
    destruct (negb _); auto. assert (M : forall g, (forall f, keeps_votes f (g f)) -> same_votes n (set_forks n (modify h g (n_forks n)))) by (intros g K; split; cbn; auto; apply keeps_modify; auto).
    destruct (f_validated f); [eapply same_trans; [|apply IH]; split; cbn; auto using keeps_all_refl|]. destruct (validate ok n (f_block f)).
    - eapply same_trans; [|apply IH]. apply (M set_validated). intros; repeat split. - cbn [fst]. apply M. intros; repeat split.
  Qed.
  Lemma apply_root_same proof_ok l : forall n n', apply_root ok l proof_ok n = Some n' -> same_votes n n'.
  Proof.
    induction l as [|b l IH]; intros n n' E; cbn in E; [injection E as <-; apply same_refl|]. destruct (_ && _); [|discriminate]. apply IH in E. eapply same_trans; [|exact E]. split; cbn; auto using keeps_all_refl.
  Qed.
  Definition same_outcome (n : node) (o : outcome) : Prop := match o with Done n' | Rejected n' => same_votes n n' | _ => True end.
  Lemma switch_same proof_ok n f : same_outcome n (switch ok proof_ok n f).
  Proof.
    unfold switch. destruct (fork_line n (Some f)) as [[|first rest]|]; [apply same_refl| |exact I]. set (line := first :: rest).
    assert (GO : forall m, same_votes n m -> same_outcome n (let (n, b) := apply_line ok (map f_hash line) m in if b then Done n else Rejected n)).
    { intros m SM. pose proof (apply_same (map f_hash line) m) as X. destruct (apply_line ok (map f_hash line) m) as (x, []); exact (same_trans _ _ _ SM X). }
    destruct (addr_eqb (h_prev (f_block first)) (h_hash (n_root n))).
    - destruct (fork_line n None) as [main|]; [|exact I]. cbv zeta. apply GO. destruct (addr_eqb _ _); [apply same_refl|split; cbn; auto using keeps_all_refl].
    - destruct (get_header n (h_prev (f_block first))) as [r|]; [|exact I]. destruct (walk_root _ _ _ _) as [(p, l)|]; [|exact I].
      destruct (apply_root _ _ _ _) as [m|] eqn:AR; [|exact I]. apply apply_root_same in AR. apply GO. destruct AR as (K & P). split; cbn in *; auto.
  Qed.
  Lemma switch_back_same proof_ok h n : same_outcome n (switch_back ok proof_ok h n).
  Proof.
    unfold switch_back. destruct (addr_eqb h (state_hash n)); [apply same_refl|]. destruct (find_fork (n_forks n) h); [apply switch_same|]. destruct (addr_eqb _ _); [split; cbn; auto using keeps_all_refl|exact I].
  Qed.
  Lemma choose_same waiting proof_ok fuel : forall n n', good n -> choose_peak ok fuel waiting proof_ok n = Some n' -> same_votes n n'.
  Proof.
    induction fuel as [|k IH]; intros n n' G E; cbn [choose_peak] in E; [discriminate|].
    pose proof (best_keeps waiting n (map f_hash (n_forks n)) (n_forks n, None) (gd_nodup _ G)) as K. unfold find_best_fork in E. destruct (fold_left _ _ _) as (fs, best). cbn [fst] in K.
    pose proof (good_forks n fs G K) as G1. assert (S1 : same_votes n (set_forks n fs)) by (split; auto).
    destruct best as [f|]; [|injection E as <-; auto]. destruct (addr_eqb (f_hash f) (state_hash (set_forks n fs))); [injection E as <-; auto|].
    assert (AG : forall m, good m -> same_votes n m -> choose_peak ok k waiting proof_ok (set_forks m (modify (f_hash f) set_invalid (n_forks m))) = Some n' -> same_votes n n').
    { intros m GM SM EM. assert (KM : keeps_all (n_forks m) (modify (f_hash f) set_invalid (n_forks m))) by (apply keeps_modify; intros; repeat split).
      apply IH in EM; [|now apply good_forks]. eapply same_trans; eauto. eapply same_trans; eauto. split; cbn; auto. }
    pose proof (switch_good proof_ok _ f G1) as SG. pose proof (switch_same proof_ok (set_forks n fs) f) as SS. destruct (switch ok proof_ok (set_forks n fs) f) as [m|m| |]; cbn in SG, SS; [injection E as <-; exact (same_trans _ _ _ S1 SS)| |exact (AG _ G1 S1 E)|discriminate].
    pose proof (switch_back_good proof_ok (state_hash (set_forks n fs)) m SG) as BG. pose proof (switch_back_same proof_ok (state_hash (set_forks n fs)) m) as BS. destruct (switch_back _ _ _ _) as [m'| | |]; try discriminate.
    cbn in BG, BS. exact (AG m' BG (same_trans _ _ _ S1 (same_trans _ _ _ SS BS)) E).
  Qed.
  Lemma same_exact n n' : exact n -> same_votes n n' -> exact n'.
  Proof. intros X (K & P). apply (exact_kept n); auto. now apply keeps_flags. Qed.
  Lemma advance_exact w n n' : good n -> exact n -> advance commit_delay max_history max_validators ok w n = Some n' -> exact n'.
  Proof.
    intros G X. unfold advance. intros E. pose proof (verify_good (w_connected w) (w_check w) n G) as G1. pose proof (votes_good (w_best w) (w_late w) _ G1) as G2. apply choose_same in E; auto.
    eapply same_exact; [|exact E]. apply votes_exact; auto. now apply verify_exact.
  Qed.
  Lemma add_exact b n : exact n -> exact (add_block b n).
  Proof.
    intros [X1 X2]. unfold add_block. destruct (_ <=? _); [constructor; auto|]. destruct (find_fork (n_forks n) (h_hash b)); [constructor; auto|]. constructor; [|exact X2]. intros v I. destruct (X1 v I) as (f & IF & R). exists f. split; [apply in_insert; auto|exact R].
  Qed.
  Lemma handle_exact best late v n : good n -> exact n -> exact (handle_vote vote_ok best late v n).
  Proof.
    intros G X. unfold handle_vote. destruct (vote_ok v) eqn:E; auto. apply votes_exact; [|destruct X; constructor; auto]. destruct G as [A B C D]. constructor; cbn; auto. apply Forall_app. auto.
  Qed.
  Lemma epoch_exact root older n : epoch commit_delay max_history max_validators ok vote_ok U root older n -> good n /\ exact n.
  Proof.
    induction 1 as [O UR|b n E (G & X) UB FI|best late v n E (G & X)|w n n' E (G & X) AD].
    - split; [|constructor; cbn; [contradiction|constructor]]. constructor; cbn; auto; [|constructor|contradiction]. assert (UO : Forall U older) by (eapply Forall_impl; [|exact O]; intros x Y; apply Y). split; [auto|]. cbn. split; [auto|]. split; auto. contradiction.
    - split; [now apply add_good|now apply add_exact]. - split; [now apply handle_good|now apply handle_exact]. - split; [eapply advance_good; eauto|eapply advance_exact; eauto].
  Qed.

  (** ** Who the validators are *)
  Lemma collect_exact n : forall r p set, exists cs, (cs = [] \/ exists l, cs = p :: l /\ lineage n p l) /\ (length cs <= r)%nat /\
    (forall k, In k (collect max_validators n r (Some p) set) <-> In k set \/ exists x, In x cs /\ h_farmer x = Some k) /\
    (max_validators <= N.of_nat (length (collect max_validators n r (Some p) set)) \/ length cs = r \/ cs <> [] /\ get_header n (h_prev (last cs p)) = None) /\
    (cs = [] -> r = 0%nat \/ max_validators <= N.of_nat (length set)).
  Proof.
    induction r as [|r IH]; intros p set; cbn [collect].
    - exists []. split; [auto|]. split; [auto|]. split; [|auto]. intros k. split; auto. intros [|(x & [] & _)]; auto.
    - destruct (N.of_nat (length set) <? max_validators) eqn:E.
      + set (set' := match h_farmer p with Some f => insert_key f set | None => set end).
        assert (S' : forall k, In k set' <-> In k set \/ h_farmer p = Some k).
        { intros k. unfold set'. destruct (h_farmer p) as [f|]; [rewrite insert_key_in|]; intuition congruence. }
        destruct (get_header n (h_prev p)) as [q|] eqn:GQ.
        * destruct (IH q set') as (cs & LI & LE & IN & MX & _). exists (p :: cs). split; [right; exists cs; split; auto|]; [|split; [cbn; lia|]].
          { destruct LI as [->|(l & -> & LI)]; cbn; auto. }
          split; [|split; [|discriminate]].
          -- intros k. rewrite IN, S'. cbn. split; [intros [[|]|(x & ? & ?)]; eauto|intros [|(x & [->|] & ?)]; eauto].
          -- destruct MX as [|[LC|(NE & LA)]]; [auto|right; left; cbn; congruence|]. right. right. split; [discriminate|]. rewrite last_cons. destruct cs as [|y cs]; [contradiction|]. rewrite last_cons in *. exact LA.
        * exists [p]. split; [right; exists []; cbn; auto|]. split; [cbn; lia|]. split; [|split; [|discriminate]].
          -- intros k. replace (collect max_validators n r None set') with set' by (destruct r; reflexivity). rewrite S'. cbn. split; [intros [|]; eauto|intros [|(x & [->|[]] & ?)]; auto].
          -- right. right. split; [discriminate|]. exact GQ.
      + apply N.ltb_ge in E. exists []. split; [auto|]. split; [cbn; lia|]. split; [|auto]. intros k. split; auto. intros [|(x & [] & _)]; auto.
  Qed.
  Lemma find_prev_lineage n d : forall b, match find_prev n (Some b) d with
    | Some p => exists l, length l = d /\ lineage n b l /\ last l b = p
    | None => exists l, (length l < d)%nat /\ lineage n b l /\ get_header n (h_prev (last l b)) = None end.
  Proof.
    induction d as [|d IH]; intros b; cbn [find_prev]; [exists []; cbn; auto|]. destruct (get_header n (h_prev b)) as [q|] eqn:G.
    - specialize (IH q). destruct (find_prev n (Some q) d) as [p|]; destruct IH as (l & L1 & L2 & L3); exists (q :: l); rewrite last_cons; cbn; auto with arith.
    - replace (find_prev n None d) with (@None header) by (destruct d; reflexivity). exists []. cbn. split; [lia|auto].
  Qed.
  Lemma lineage_app n l : forall b l', lineage n b (l ++ l') <-> lineage n b l /\ lineage n (last l b) l'.
  Proof. induction l as [|x l IH]; intros b l'; cbn [app lineage]; [cbn; tauto|]. rewrite IH, last_cons. tauto. Qed.
  Lemma skipn_last (l : list header) : forall b r, skipn (length l) (b :: l ++ r) = last l b :: r.
  Proof. induction l as [|x l IH]; intros b r; cbn [length]; [reflexivity|]. rewrite last_cons. change (skipn (S (length l)) (b :: (x :: l) ++ r)) with (skipn (length l) (x :: l ++ r)). apply IH. Qed.
  Lemma validators_exact n b : (0 < max_history)%nat -> 0 < max_validators -> let ks := get_validators commit_delay max_history max_validators n b in
    exists l, lineage n b l /\ let cs := skipn commit_delay (b :: l) in
      (length cs <= max_history)%nat /\ (forall k, In k ks <-> exists x, In x cs /\ h_farmer x = Some k) /\ NoDup ks /\ N.of_nat (length ks) <= max_validators /\
      (N.of_nat (length ks) = max_validators \/ length cs = max_history \/ get_header n (h_prev (last l b)) = None).
  Proof.
    intros HH HV. cbv zeta. unfold get_validators. pose proof (find_prev_lineage n commit_delay b) as FP. destruct (find_prev n (Some b) commit_delay) as [p|].
    - destruct FP as (l0 & L1 & L2 & L3). destruct (collect_exact n max_history p []) as (cs & LI & LE & IN & MX & EM). destruct LI as [->|(l & -> & LI)].
      { destruct (EM eq_refl); [lia|]. cbn in H. lia. }
      pose proof (collect_ok n max_history (Some p) [] (NoDup_nil _)) as CO. cbn [length] in CO. specialize (CO ltac:(lia)). cbv zeta in CO. destruct CO as (C1 & C2).
      exists (l0 ++ l). split; [apply lineage_app; split; auto; rewrite L3; auto|]. rewrite <- L1, skipn_last, L3. split; [auto|]. split; [intros k; rewrite IN; cbn; tauto|]. split; [auto|]. split; [auto|].
      destruct MX as [|[|(_ & X)]]; [left; lia|auto|]. right. right. destruct l as [|y l].
      + rewrite app_nil_r. cbn in X. now rewrite L3.
      + rewrite last_cons in X. destruct (@exists_last _ (y :: l) ltac:(discriminate)) as (w & z & EW). rewrite EW in *. rewrite app_assoc, last_snoc. rewrite last_snoc in X. exact X.
    - destruct FP as (l & L1 & L2 & L3). exists l. split; auto. rewrite skipn_all2 by (cbn; lia). replace (collect max_validators n max_history None []) with (@nil bytes) by (destruct max_history; reflexivity).
      split; [cbn; lia|]. split; [intros k; split; [contradiction|intros (x & [] & _)]|]. split; [constructor|]. split; [cbn; lia|]. auto.
  Qed.
End VOTES.
