(** Proofs of space: C84 to C88 *)
Require Import List Arith NArith ZArith Bool Lia Permutation Sorted.
From Verif Require Import BitsLib SpaceModel SpaceSpec SpaceProofs SpaceVerProofs SpaceHarvProofs SpaceFindProofs.
Import ListNotations.
Open Scope N_scope.

(** ** C84: a proof is accepted if and only if it is one *)
Theorem C84_accepted_proofs_are_good : forall Or srt arrange P p challenge difficulty vdf_height, sorts srt -> Forall (fun x => x < 2 ^ 32) (pf_xs p) ->
  verify_proof Or srt arrange P p challenge difficulty vdf_height = true -> exists y data, good_proof Or P p challenge difficulty vdf_height y data.
Proof. intros Or srt arrange P p c d h Hs Hx H. destruct (accepted_is_good Or srt arrange Hs P p c d h Hx H) as (y & m & G & _). eauto. Qed.
Print Assumptions C84_accepted_proofs_are_good.

Theorem C84_good_proofs_are_accepted : forall Or srt arrange P p challenge difficulty vdf_height y data, sorts srt -> Forall (fun x => x < 2 ^ 32) (pf_xs p) -> 8 <= pf_ksize p <= 32 ->
  good_proof Or P p challenge difficulty vdf_height y data ->
  (forall l y' data', made_of Or p 8 l y' data' -> incl l (pf_xs p) -> l = pf_xs p) ->
  verify_proof Or srt arrange P p challenge difficulty vdf_height = true.
Proof. intros Or srt arrange P p c d h y m Hs Hx Hk G Hu. exact (good_is_accepted Or srt arrange Hs P p c d h y m Hx Hk G Hu). Qed.
Print Assumptions C84_good_proofs_are_accepted.

(** ** C85: the verdict does not depend on the node *)
Theorem C85_nodes_agree : forall Or srt srt' arrange arrange' P p challenge difficulty vdf_height, sorts srt -> sorts srt' -> Forall (fun x => x < 2 ^ 32) (pf_xs p) ->
  (forall l l' y y' data, incl l (pf_xs p) -> incl l' (pf_xs p) -> made_of Or p 8 l y data -> made_of Or p 8 l' y' data -> l = l') ->
  verify_proof Or srt arrange P p challenge difficulty vdf_height = verify_proof Or srt' arrange' P p challenge difficulty vdf_height.
Proof. intros Or srt srt' arr arr' P p c d h H1 H2 Hx Hd. exact (verdict_agrees Or srt srt' arr arr' P p c d h H1 H2 Hx Hd). Qed.
Print Assumptions C85_nodes_agree.

(** ** C86: what a harvester publishes is accepted *)
Theorem C86_published_proofs_are_accepted : forall Or srt arrange pub sign sig_ok, sorts srt -> (forall l, Permutation l (arrange l)) -> (forall sk h, sig_ok (pub sk) h (sign sk h) = true) ->
  forall P pl c pool p, right_plot Or pl -> min_ksize P <= h_ksize (p_header pl) <= max_ksize P ->
  (In p (snd (lookup_plot Or srt arrange P pl c pool)) ->
     verify_proof Or srt arrange P p (c_challenge c) (c_difficulty c) (c_vdf_height c) = true /\
     forall name keys, (forall k sk, keys k = Some sk -> pub sk = k) ->
       (forall v root, farmer_handle Or sign keys (send_response Or name c p) = Some v -> root < c_vdf_height c ->
         r_proof v = p /\ verify_response Or srt arrange sig_ok P root (Some (c_challenge c, c_difficulty c)) v = true) /\
       (name < 1024 -> forall sk, keys (pf_farmer_key p) = Some sk -> exists v, farmer_handle Or sign keys (send_response Or name c p) = Some v)) /\
  (In p (fst (lookup_plot Or srt arrange P pl c pool)) -> exists d, pool = Some d /\ verify_proof Or srt arrange P p (c_challenge c) d (c_vdf_height c) = true).
Proof.
  intros Or srt arrange pub sign sig_ok Hs Ha Hsig P pl c pool p R HR.
  destruct (published_accepted Or srt arrange Hs Ha P pl c pool p R HR) as [A B]. split; [|exact B]. intros Hin. split; [auto|].
  intros name keys Hk. split.
  - intros v root Hv Hr. exact (response_accepted Or srt arrange Hs Ha pub sign sig_ok Hsig P pl c pool p name keys v root R HR Hin Hk Hv Hr).
  - intros Hn sk Hsk. exact (farmer_passes_on Or srt arrange Hs Ha sign P pl c pool p name keys sk R HR Hn Hin Hsk).
Qed.
Print Assumptions C86_published_proofs_are_accepted.

(** a harvester whose name has 1024 characters or more is never heard *)
Theorem C86_long_names_are_not_heard : forall Or sign keys c p name, 1024 <= name -> farmer_handle Or sign keys (send_response Or name c p) = None.
Proof.
  intros Or sign keys c p name H. unfold farmer_handle, send_response, response_is_valid. cbn [r_proof r_name r_hash r_vdf_height].
  replace (N.min name 1024 <? 1024) with false by (symmetry; apply N.ltb_ge; lia). now rewrite andb_false_r.
Qed.

(** ** C87: a harvester finds every proof *)
Theorem C87_winning_proofs_are_published_partial : forall Or srt arrange, sorts srt -> (forall l, Permutation l (arrange l)) ->
  forall P pl c pool T found, right_plot Or pl -> min_ksize P <= h_ksize (p_header pl) <= max_ksize P -> 8 <= h_ksize (p_header pl) <= 32 -> sorted_table pl T ->
  let challenge := o_plot Or (h_plot_id (p_header pl)) (c_challenge c) in
  let y0 := first_y challenge (h_ksize (p_header pl)) in
  (** the search does not give up after a hundred steps, and all data can be read *)
  find_entries pl challenge (plot_filter P) = Some found ->
  (h_has_meta (p_header pl) = true -> forall j, j < h_num_entries_y (p_header pl) -> p_meta pl j <> None) ->
  (** no park after the first begins with a value asked for *)
  (forall n, 0 < n -> n * h_park_size_y (p_header pl) < h_num_entries_y (p_header pl) -> ~ (y0 <= T (n * h_park_size_y (p_header pl)) < y0 + 2 ^ plot_filter P)) ->
  (forall i, In i found <-> i < h_num_entries_y (p_header pl) /\ y0 <= T i < y0 + 2 ^ plot_filter P) /\
  forall i xs l y m, i < h_num_entries_y (p_header pl) -> p_xs pl i = Some xs -> incl l (values_of pl xs) -> plot_spells Or pl 8 l y m ->
  (forall l' y' m', plot_spells Or pl 8 l' y' m' -> incl l' (values_of pl xs) -> l' = l) ->
  let proof d := make_proof Or (p_header pl) c (h_contract (p_header pl)) d l in
  (verify_proof Or srt arrange P (proof (c_difficulty c)) (c_challenge c) (c_difficulty c) (c_vdf_height c) = true -> In (proof (c_difficulty c)) (snd (lookup_plot Or srt arrange P pl c pool))) /\
  (forall d, pool = Some d -> verify_proof Or srt arrange P (proof d) (c_challenge c) d (c_vdf_height c) = true -> In (proof d) (fst (lookup_plot Or srt arrange P pl c pool))).
Proof.
  intros Or srt arrange Hs Ha P pl c pool T found R HR Hk ST ch y0 EF Hm Hf. split.
  - exact (finds_all pl T ch (plot_filter P) found (rp_parks _ _ R) ST EF Hf).
  - exact (winners_published Or srt arrange Hs Ha P pl c pool T found R HR Hk ST EF Hm Hf).
Qed.
Print Assumptions C87_winning_proofs_are_published_partial.

(** ** C88: the starting values of a plot of size k are below 2^k *)
Theorem C88_published_values_partial : forall Or srt arrange, sorts srt -> (forall l, Permutation l (arrange l)) ->
  forall P pl c pool p, right_plot Or pl -> In p (fst (lookup_plot Or srt arrange P pl c pool)) \/ In p (snd (lookup_plot Or srt arrange P pl c pool)) ->
  Forall (fun x => x < 2 ^ pf_ksize p) (pf_xs p).
Proof. exact published_small. Qed.
Print Assumptions C88_published_values_partial.

(** ** A sort *)
Lemma meta_lt_asym : forall a b, meta_lt a b = true -> meta_lt b a = false.
Proof.
  induction a as [|x a IH]; intros [|y b] H; cbn [meta_lt] in *; try discriminate; auto.
  destruct (x <? y) eqn:E1, (y <? x) eqn:E2; auto; try discriminate. apply N.ltb_lt in E1. apply N.ltb_lt in E2. lia.
Qed.
Lemma meta_le_trans : forall a b c, meta_lt b a = false -> meta_lt c b = false -> meta_lt c a = false.
Proof.
  induction a as [|x a IH]; intros [|y b] [|z c] H1 H2; cbn [meta_lt] in *; try discriminate; auto.
  destruct (y <? x) eqn:E1; [discriminate|]. destruct (z <? y) eqn:E2; [discriminate|]. apply N.ltb_ge in E1. apply N.ltb_ge in E2.
  replace (z <? x) with false by (symmetry; apply N.ltb_ge; lia).
  destruct (x <? z) eqn:E5; [reflexivity|]. apply N.ltb_ge in E5. assert (x = y /\ y = z) as [-> ->] by lia. rewrite N.ltb_irrefl in *. eapply IH; eauto.
Qed.
Fixpoint insert (M : list meta) (e : entry) (l : list entry) : list entry :=
  match l with [] => [e] | f :: r => if sort_func M f e then f :: insert M e r else e :: l end.
Definition isort (M : list meta) (l : list entry) : list entry := fold_right (insert M) [] l.
Lemma sort_le_trans : forall M a b c, sort_func M b a = false -> sort_func M c b = false -> sort_func M c a = false.
Proof.
  intros M [a i] [b j] [c k]. unfold sort_func. cbn [fst snd]. intros H1 H2.
  destruct (b =? a) eqn:E1, (c =? b) eqn:E2; repeat match goal with H : (_ =? _) = true |- _ => apply N.eqb_eq in H; subst | H : (_ =? _) = false |- _ => apply N.eqb_neq in H | H : (_ <? _) = false |- _ => apply N.ltb_ge in H end.
  - rewrite N.eqb_refl. eapply meta_le_trans; eauto.
  - replace (c =? a) with false by (symmetry; apply N.eqb_neq; lia). apply N.ltb_ge. lia.
  - replace (b =? a) with false by (symmetry; apply N.eqb_neq; lia). apply N.ltb_ge. lia.
  - replace (c =? a) with false by (symmetry; apply N.eqb_neq; lia). apply N.ltb_ge. lia.
Qed.
Lemma sort_asym : forall M a b, sort_func M a b = true -> sort_func M b a = false.
Proof.
  intros M [a i] [b j]. unfold sort_func. cbn [fst snd]. rewrite (N.eqb_sym b a). destruct (a =? b) eqn:E; intros H.
  - now apply meta_lt_asym. - apply N.ltb_lt in H. apply N.ltb_ge. lia.
Qed.
Lemma isort_sorts : sorts isort.
Proof.
  intros M l. induction l as [|e l [IH1 IH2]]; cbn [isort fold_right]; [split; constructor|]. fold (isort M l).
  assert (P : forall s, Permutation (e :: s) (insert M e s)).
  { induction s as [|f s IH]; cbn [insert]; [apply Permutation_refl|]. destruct (sort_func M f e); [|apply Permutation_refl].
    eapply perm_trans; [apply perm_swap|]. now constructor. }
  split; [eapply perm_trans; [apply perm_skip; exact IH1|apply P]|].
  clear IH1. induction IH2 as [|f s H IH Hall]; cbn [insert]; [repeat constructor|].
  destruct (sort_func M f e) eqn:E.
  - constructor; [exact IH|]. apply Forall_forall. intros z Hz. apply (Permutation_in _ (Permutation_sym (P s))) in Hz.
    destruct Hz as [<-|Hz]; [now apply sort_asym|]. rewrite Forall_forall in Hall. auto.
  - constructor; [now constructor|]. constructor; [exact E|]. rewrite Forall_forall in *. intros z Hz. eapply sort_le_trans; [exact E|]. auto.
Qed.

(** ** A stand-in for the hash functions: starting values x and x + 256 behave alike; the values 0 to 255 make one proof, with final value 30001 *)
Definition val (level j : N) : N := if level =? 8 then 30001 else 4 * (j / 2) + j mod 2.
Definition node (level j : N) : list N := [j; level; N.lxor (N.lxor j level) (val level j)].
Definition toy : oracle := mk_oracle
  (fun _ x => node 0 (x mod 256))
  (fun ws => node (nth 1 ws 0 + 1) (nth 0 ws 0 / 2))
  (fun _ _ => 0) (fun _ _ => 30000) (fun _ _ => 5) (fun _ _ => 0) (fun _ xs => 77 + nth 3 xs 0)
  (fun k s f => k + s + f) (fun k s f c => k + s + f + c) (fun h p => h + pf_score p).
Definition toy_params : params := mk_params 16 32 4 2 1000 50.
Definition leaves (off : N) : list N := map (fun i => off + N.of_nat i) (seq 0 256).
Definition toy_proof (off : N) : proof := mk_proof None (80 + off) 123 9 3 100 16 7 (leaves off).

Example C84_case : verify_proof toy isort (fun l => l) toy_params (toy_proof 0) 9 3 10 = true /\ verify_proof toy isort (fun l => l) toy_params (toy_proof 0) 9 3 60 = true
  /\ verify_proof toy isort (fun l => l) toy_params (mk_proof None 80 123 9 3 100 16 7 (rev (leaves 0))) 9 3 10 = false.
Proof. vm_compute. auto. Qed.

Lemma meta_eq_sound : forall a b, meta_eq a b = true -> a = b.
Proof. induction a as [|x a IH]; intros [|y b] H; cbn [meta_eq] in H; try discriminate; auto. apply andb_true_iff in H. destruct H as [H1 H2]. apply N.eqb_eq in H1. f_equal; auto. Qed.
(** all that can be made of the values 0 to 255 *)
Lemma toy_spells : forall n l y m, spells (f1 toy 16 123) (f2 toy 16) n l y m -> (n <= 8)%nat -> (forall x, In x l -> x < 256) ->
  exists j, (j < 2 ^ (8 - n))%nat /\ y = val (N.of_nat n) (N.of_nat j) /\ m = node (N.of_nat n) (N.of_nat j) /\ l = map N.of_nat (seq (j * 2 ^ n) (2 ^ n)).
Proof.
  assert (Out : forall n j, (n <= 8)%nat -> (j < 256)%nat -> outputs 16 (node (N.of_nat n) (N.of_nat j)) = (val (N.of_nat n) (N.of_nat j), node (N.of_nat n) (N.of_nat j))).
  { assert (A : forallb (fun n => forallb (fun j => let o := outputs 16 (node (N.of_nat n) (N.of_nat j)) in
        (fst o =? val (N.of_nat n) (N.of_nat j)) && meta_eq (snd o) (node (N.of_nat n) (N.of_nat j))) (seq 0 256)) (seq 0 9) = true) by (vm_compute; reflexivity).
    intros n j Hn Hj. rewrite forallb_forall in A. specialize (A n ltac:(apply in_seq; lia)). rewrite forallb_forall in A. specialize (A j ltac:(apply in_seq; lia)).
    cbv zeta in A. apply andb_true_iff in A. destruct A as [A1 A2]. apply N.eqb_eq in A1. apply meta_eq_sound in A2. destruct (outputs 16 _) as [a b]. cbn [fst snd] in *. now subst. }
  intros n l y m H. induction H as [x|n l r yl ml yr mr Hl IHl Hr IHr E]; intros Hn Hx.
  - assert (Hxx : x < 256) by (apply Hx; now left). exists (N.to_nat x). change (2 ^ (8 - 0))%nat with 256%nat. split; [lia|].
    unfold f1. cbn [toy o_f1]. rewrite N.mod_small by exact Hxx. change 0 with (N.of_nat 0) at 1 2. replace (node (N.of_nat 0) x) with (node (N.of_nat 0) (N.of_nat (N.to_nat x))) by (now rewrite N2Nat.id).
    rewrite Out by lia. cbn [fst snd]. split; [reflexivity|]. split; [reflexivity|]. change (2 ^ 0)%nat with 1%nat. rewrite Nat.mul_1_r. cbn [seq map]. now rewrite N2Nat.id.
  - destruct IHl as (j & Hj & -> & -> & ->); [lia|intros; apply Hx; apply in_or_app; auto|].
    destruct IHr as (k & Hk & -> & -> & ->); [lia|intros; apply Hx; apply in_or_app; auto|].
    assert (Hn8 : (n < 8)%nat) by lia.
    assert (Hpow : (2 ^ (8 - n) = 2 * 2 ^ (8 - S n))%nat) by (replace (8 - n)%nat with (S (8 - S n)) by lia; reflexivity).
    assert (Hb : (2 ^ (8 - S n) <= 128)%nat) by (change 128%nat with (2 ^ 7)%nat; apply Nat.pow_le_mono_r; lia).
    assert (J : exists i, j = (2 * i)%nat /\ k = (2 * i + 1)%nat).
    { unfold val in E. replace (N.of_nat n =? 8) with false in E by (symmetry; apply N.eqb_neq; lia).
      pose proof (Nat.div_mod j 2 ltac:(lia)) as D1. pose proof (Nat.div_mod k 2 ltac:(lia)) as D2.
      pose proof (Nat.mod_upper_bound j 2 ltac:(lia)). pose proof (Nat.mod_upper_bound k 2 ltac:(lia)).
      change 2 with (N.of_nat 2) in E. rewrite <- !Nat2N.inj_div, <- !Nat2N.inj_mod in E.
      exists (j / 2)%nat. generalize dependent (j / 2)%nat. generalize dependent (k / 2)%nat. generalize dependent (j mod 2)%nat. generalize dependent (k mod 2)%nat. intros. lia. }
    destruct J as (i & -> & ->). exists i. split; [lia|].
    unfold f2. cbn [toy o_f2]. cbn [node app nth]. 
    replace (N.of_nat (2 * i) / 2) with (N.of_nat i) by (rewrite Nat2N.inj_mul, N.mul_comm, N.div_mul; [reflexivity|discriminate]).
    replace (N.of_nat n + 1) with (N.of_nat (S n)) by lia.
    rewrite Out by lia. cbn [fst snd]. split; [reflexivity|]. split; [reflexivity|].
    rewrite <- map_app. f_equal. rewrite Nat.pow_succ_r'. replace (2 * 2 ^ n)%nat with (2 ^ n + 2 ^ n)%nat by lia. rewrite seq_app. f_equal; f_equal; lia.
Qed.
Lemma leaves0 : leaves 0 = map N.of_nat (seq 0 256).
Proof. reflexivity. Qed.
Lemma toy_full : forall l y m, spells (f1 toy 16 123) (f2 toy 16) 8 l y m -> incl l (leaves 0) -> l = leaves 0 /\ y = 30001 /\ m = node 8 0.
Proof.
  intros l y m S Hi. destruct (toy_spells 8 l y m S ltac:(lia)) as (j & Hj & -> & -> & ->).
  - intros x Hx. specialize (Hi x Hx). rewrite leaves0 in Hi. apply in_map_iff in Hi. destruct Hi as (t & <- & Ht). apply in_seq in Ht. lia.
  - change (2 ^ (8 - 8))%nat with 1%nat in Hj. assert (j = O) by lia. subst j. split; [reflexivity|]. split; reflexivity.
Qed.
(** so it is the only proof, and no two have the same data: C84 and C85 apply *)
Example C84_hypotheses : (forall l y m, made_of toy (toy_proof 0) 8 l y m -> incl l (pf_xs (toy_proof 0)) -> l = pf_xs (toy_proof 0)) /\ Forall (fun x => x < 2 ^ 32) (pf_xs (toy_proof 0)) /\
  exists y m, good_proof toy toy_params (toy_proof 0) 9 3 60 y m.
Proof.
  assert (F : Forall (fun x => x < 2 ^ 32) (pf_xs (toy_proof 0))).
  { apply Forall_forall. intros x Hx. cbn [toy_proof pf_xs] in Hx. rewrite leaves0 in Hx. apply in_map_iff in Hx. destruct Hx as (t & <- & Ht). apply in_seq in Ht. lia. }
  split; [|split; [exact F|]].
  - intros l y m S Hi. now destruct (toy_full l y m S Hi).
  - apply (C84_accepted_proofs_are_good toy isort (fun l => l)); [apply isort_sorts|exact F|]. exact (proj1 (proj2 C84_case)).
Qed.
Example C85_hypotheses : forall l l' y y' m, incl l (pf_xs (toy_proof 0)) -> incl l' (pf_xs (toy_proof 0)) -> made_of toy (toy_proof 0) 8 l y m -> made_of toy (toy_proof 0) 8 l' y' m -> l = l'.
Proof. intros l l' y y' m H1 H2 S1 S2. destruct (toy_full _ _ _ S1 H1) as [-> _]. now destruct (toy_full _ _ _ S2 H2) as [-> _]. Qed.

(** ** Plots: 100 entries, value 30001 at index 7; parks of [ps] entries *)
Definition toy_value (i : N) : N := if i <? 7 then i else if i =? 7 then 30001 else if i =? 8 then 30002 else 40000 + i.
Definition toy_deltas (ps n : N) : list N := map (fun t => let i := n * ps + N.of_nat t in toy_value (i + 1) - toy_value i) (seq 0 (N.to_nat (ps - 1))).
Definition toy_plot (ps : N) : plot :=
  mk_plot (mk_header 16 16 false 7 123 100 None ps 100) (fun n => Some (toy_value (n * ps))) (fun n => Some (toy_deltas ps n)) (fun _ => None)
    (fun i => if i =? 7 then Some (leaves 0) else None).
Definition toy_challenge : challenge_t := mk_challenge 60 9 3.

Lemma toy_value_mono : forall i j, i <= j -> toy_value i <= toy_value j.
Proof.
  intros i j H. unfold toy_value. destruct (i <? 7) eqn:E1, (j <? 7) eqn:E2, (i =? 7) eqn:E3, (j =? 7) eqn:E4, (i =? 8) eqn:E5, (j =? 8) eqn:E6;
  repeat match goal with H : (_ =? _) = true |- _ => apply N.eqb_eq in H | H : (_ =? _) = false |- _ => apply N.eqb_neq in H | H : (_ <? _) = false |- _ => apply N.ltb_ge in H | H : (_ <? _) = true |- _ => apply N.ltb_lt in H end; lia.
Qed.
Lemma toy_value_bound : forall i, i <= 1000 -> toy_value i < 2 ^ 32.
Proof. intros i H. pose proof (toy_value_mono i 1000 H) as M. change (toy_value 1000) with 41000 in M. change (2 ^ 32) with 4294967296. lia. Qed.
Lemma toy_undelta : forall ps n c s, n * ps + N.of_nat s + N.of_nat c <= 1000 ->
  undelta (toy_value (n * ps + N.of_nat s)) (map (fun t => let i := n * ps + N.of_nat t in toy_value (i + 1) - toy_value i) (seq s c))
  = map (fun t => toy_value (n * ps + N.of_nat t)) (seq (S s) c).
Proof.
  induction c as [|c IH]; intros s H; cbn [seq map undelta]; [reflexivity|].
  assert (E : (toy_value (n * ps + N.of_nat s) + (toy_value (n * ps + N.of_nat s + 1) - toy_value (n * ps + N.of_nat s))) mod 2 ^ 32 = toy_value (n * ps + N.of_nat (S s))).
  { pose proof (toy_value_mono (n * ps + N.of_nat s) (n * ps + N.of_nat s + 1) ltac:(lia)).
    replace (n * ps + N.of_nat (S s)) with (n * ps + N.of_nat s + 1) by lia. rewrite N.add_comm, N.sub_add by assumption. apply N.mod_small. apply toy_value_bound. lia. }
  cbv zeta. rewrite E. f_equal. rewrite <- IH by lia. reflexivity.
Qed.
Lemma toy_stored : forall ps i, 0 < ps -> ps <= 100 -> i < 100 -> stored (toy_plot ps) i = Some (toy_value i).
Proof.
  intros ps i H1 H2 H3. unfold stored. cbn [toy_plot p_header h_park_size_y p_head p_deltas].
  pose proof (N.div_mod i ps ltac:(lia)) as D. pose proof (N.mod_lt i ps ltac:(lia)) as L.
  set (n := i / ps) in *. set (r := i mod ps) in *. clearbody n r. rewrite N.mul_comm in D.
  assert (D' : n * ps <= 100) by lia.
  replace (y_list (toy_value (n * ps)) (toy_deltas ps n)) with (map (fun t => toy_value (n * ps + N.of_nat t)) (seq 0 (S (N.to_nat (ps - 1))))).
  - erewrite map_nth_error; [|rewrite nth_error_nth' with (d := O) by (rewrite seq_length; lia); rewrite seq_nth by lia; reflexivity].
    do 2 f_equal. lia.
  - cbn [seq map]. unfold y_list. rewrite N.add_0_r. f_equal. unfold toy_deltas. rewrite <- (toy_undelta ps n (N.to_nat (ps - 1)) 0) by lia. now rewrite N.add_0_r.
Qed.
Lemma toy_values : values_of (toy_plot 4) (leaves 0) = leaves 0 /\ values_of (toy_plot 100) (leaves 0) = leaves 0.
Proof. vm_compute. auto. Qed.
Lemma toy_parks : forall ps, 0 < ps -> parks_ok (toy_plot ps).
Proof. intros ps H. split; [exact H|]. intros n ds E. cbn in E. injection E as <-. unfold toy_deltas. rewrite map_length, seq_length. cbn. lia. Qed.
Lemma toy_right : forall ps, (ps = 4 \/ ps = 100) -> right_plot toy (toy_plot ps).
Proof.
  intros ps Hps.
  assert (HV : values_of (toy_plot ps) (leaves 0) = leaves 0) by (destruct Hps as [-> | ->]; apply toy_values).
  assert (HX : forall i xs, p_xs (toy_plot ps) i = Some xs -> i = 7 /\ xs = leaves 0).
  { intros i xs H. cbn [toy_plot p_xs] in H. destruct (i =? 7) eqn:E; [|discriminate]. apply N.eqb_eq in E. injection H as <-. auto. }
  constructor.
  - apply toy_parks. lia.
  - cbn. lia.
  - reflexivity.
  - intros i xs H. destruct (HX _ _ H) as [_ ->]. apply Forall_forall. intros x Hx. rewrite leaves0 in Hx. apply in_map_iff in Hx. destruct Hx as (t & <- & Ht). apply in_seq in Ht.
    cbn [toy_plot p_header h_xbits]. change (2 ^ 16) with 65536. lia.
  - intros i xs l y m H Hl S. destruct (HX _ _ H) as [-> ->]. rewrite HV in Hl. destruct (toy_full l y m S Hl) as (-> & -> & ->). split; [|discriminate].
    intros v. rewrite toy_stored by lia. intros E. now injection E.
  - intros i xs H. destruct (HX _ _ H) as [-> ->]. rewrite HV. intros l l' y y' m H1 H2 S1 S2. destruct (toy_full _ _ _ S1 H1) as [-> _]. now destruct (toy_full _ _ _ S2 H2) as [-> _].
Qed.
Lemma toy_sorted : forall ps, (ps = 4 \/ ps = 100) -> sorted_table (toy_plot ps) toy_value.
Proof.
  intros ps Hps. constructor.
  - intros n _. split; discriminate.
  - intros i Hi. apply toy_stored; [lia|lia|exact Hi].
  - intros i j H _. now apply toy_value_mono.
Qed.

(** the plot with one park: the proof is found and published, so C86, C87 and C88 apply *)
Definition toy_found : proof := make_proof toy (p_header (toy_plot 100)) toy_challenge None 3 (leaves 0).
Example C86_case : lookup_plot toy isort (fun l => l) toy_params (toy_plot 100) toy_challenge None = ([], [toy_found]).
Proof. vm_compute. reflexivity. Qed.
Example C86_hypotheses : right_plot toy (toy_plot 100) /\ min_ksize toy_params <= h_ksize (p_header (toy_plot 100)) <= max_ksize toy_params.
Proof. split; [apply toy_right; auto|]. cbn. lia. Qed.
Example C87_hypotheses : sorted_table (toy_plot 100) toy_value /\ find_entries (toy_plot 100) 30000 4 = Some [7; 8] /\
  (forall n, 0 < n -> n * 100 < 100 -> ~ (30000 <= toy_value (n * 100) < 30000 + 2 ^ 4)) /\
  (forall l y m, plot_spells toy (toy_plot 100) 8 l y m -> incl l (values_of (toy_plot 100) (leaves 0)) -> l = leaves 0) /\
  verify_proof toy isort (fun l => l) toy_params toy_found 9 3 60 = true.
Proof.
  split; [apply toy_sorted; auto|]. split; [vm_compute; reflexivity|]. split; [intros; lia|]. split; [|vm_compute; reflexivity].
  intros l y m S Hi. rewrite (proj2 toy_values) in Hi. now destruct (toy_full l y m S Hi).
Qed.

(** the same plot with parks of four entries: index 8 begins the third park and is the first to be looked at; the proof at index 7 is missed, although it would be accepted *)
Theorem C87_missed_proof_refuted : exists Or srt arrange P pl c T i xs l y m,
  sorts srt /\ (forall l, Permutation l (arrange l)) /\ right_plot Or pl /\ sorted_table pl T /\ i < h_num_entries_y (p_header pl) /\ p_xs pl i = Some xs /\ incl l (values_of pl xs) /\
  plot_spells Or pl 8 l y m /\ (forall l' y' m', plot_spells Or pl 8 l' y' m' -> incl l' (values_of pl xs) -> l' = l) /\
  verify_proof Or srt arrange P (make_proof Or (p_header pl) c (h_contract (p_header pl)) (c_difficulty c) l) (c_challenge c) (c_difficulty c) (c_vdf_height c) = true /\
  lookup_plot Or srt arrange P pl c None = ([], []).
Proof.
  destruct (accepted_is_good toy isort (fun l => l) isort_sorts toy_params toy_found 9 3 60 (proj1 (proj2 C84_hypotheses)) (proj2 (proj2 (proj2 (proj2 C87_hypotheses))))) as (y & m & G & _).
  pose proof (g_tree _ _ _ _ _ _ _ _ G) as S.
  exists toy, isort, (fun l => l), toy_params, (toy_plot 4), toy_challenge, toy_value, 7, (leaves 0), (leaves 0), y, m.
  split; [apply isort_sorts|]. split; [intros; apply Permutation_refl|]. split; [apply toy_right; auto|]. split; [apply toy_sorted; auto|]. split; [reflexivity|]. split; [reflexivity|].
  rewrite (proj1 toy_values). split; [apply incl_refl|]. split; [exact S|]. split; [intros l' y' m' S' Hi; now destruct (toy_full l' y' m' S' Hi)|].
  split; vm_compute; reflexivity.
Qed.
Print Assumptions C87_missed_proof_refuted.

(** a proof for a plot of size 16 made of values of 2^20 and more is accepted *)
Theorem C88_large_values_refuted : exists Or srt arrange P p challenge difficulty vdf_height, sorts srt /\ verify_proof Or srt arrange P p challenge difficulty vdf_height = true /\
  pf_ksize p = 16 /\ Forall (fun x => 2 ^ 20 <= x) (pf_xs p).
Proof.
  exists toy, isort, (fun l => l), toy_params, (mk_proof None 80 123 9 3 100 16 7 (leaves (2 ^ 20))), 9, 3, 10. split; [apply isort_sorts|]. split; [vm_compute; reflexivity|]. split; [reflexivity|].
  apply Forall_forall. intros x Hx. cbn [pf_xs] in Hx. unfold leaves in Hx. apply in_map_iff in Hx. destruct Hx as (t & <- & _). lia.
Qed.
Print Assumptions C88_large_values_refuted.
