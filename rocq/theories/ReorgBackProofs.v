(** Proofs for ReorgModel.v: a switch that fails *)
Require Import List Arith NArith Bool Lia.
Import ListNotations.
From Verif Require Import DbSpec ReorgModel ReorgSpec ReorgProofs ReorgInvProofs ReorgRunProofs.
Open Scope N_scope.

Section REORG3.
  Context {K V C : Type} (K_eqb : K -> K -> bool).
  Variable valid : view K V -> block -> option C.
  Variable effects : view K V -> block -> option C -> list (K * V).
  Variable genesis : block.
  Variable commit_delay : N.
  Variable U : block -> Prop.
  Hypothesis GOOD : good_blocks U genesis.
  Hypothesis HON : honest U.

  Notation scratch := (scratch K_eqb valid effects).
  Notation chain := (chain K_eqb valid effects genesis).
  Notation uchain := (uchain K_eqb valid effects genesis U).
  Notation ctx_for := (ctx_for K_eqb valid effects).
  Notation the_view := (the_view K V K_eqb).
  Notation db := (db K V).
  Notation node := (node K V C).
  Notation fork := (fork C).
  Notation find_fork := (find_fork K V C).
  Notation find_stored := (find_stored K V C).
  Notation get_block := (get_block K V C).
  Notation n_root := (n_root K V C).
  Notation n_forks := (n_forks K V C).
  Notation n_db := (n_db K V C).
  Notation n_stored := (n_stored K V C).
  Notation n_state := (n_state K V C).
  Notation n_rank := (n_rank K V C).
  Notation n_trace := (n_trace K V C).
  Notation f_block := (f_block C).
  Notation f_validated := (f_validated C).
  Notation f_ctx := (f_ctx C).
  Notation apply := (apply K V C K_eqb effects).
  Notation revert := (revert K V C).
  Notation write_block := (write_block K V C).
  Notation validate := (validate K V C K_eqb valid).
  Notation set_forks := (set_forks K V C).
  Notation set_root := (set_root K V C).
  Notation mk_node := (mk_node K V C).

  Notation inv := (inv K_eqb valid effects genesis U).
  Notation base := (base K_eqb valid effects genesis U).
  Notation fork_ok := (fork_ok K_eqb valid effects genesis U).
  Notation disk_ok := (disk_ok K_eqb valid effects genesis U).
  Notation outcome := (outcome K V C).
  Notation apply_line := (apply_line K V C K_eqb valid effects).
  Notation apply_root := (apply_root K V C K_eqb valid effects).
  Notation same_forks := (@same_forks K V C).
  Notation add_fork := (add_fork K V C).
  Notation reset := (reset K V C K_eqb effects genesis commit_delay).
  Notation restore := (restore K V C K_eqb valid effects genesis commit_delay).
  Notation switch := (switch K V C K_eqb valid effects genesis commit_delay).
  Notation walk_line := (walk_line K V C).
  Notation fork_line := (fork_line K V C).
  Notation start := (start K V C K_eqb effects genesis commit_delay).
  Notation step := (step K V C K_eqb valid effects genesis commit_delay).
  Notation run := (run K V C K_eqb valid effects genesis commit_delay).

  Notation ok := (ok K_eqb valid effects genesis U).
  Notation blocks_in := (@blocks_in K V C).
  Notation healthy := (@healthy K V C).
  Notation go_back := (go_back K_eqb valid effects genesis commit_delay).
  Notation or_genesis := (or_genesis genesis).

  (** ** paths *)
  Lemma last_default {A} (l : list A) : forall x d d', last (x :: l) d = last (x :: l) d'.
  Proof. induction l as [|y l IH]; intros x d d'; auto. change (last (y :: l) d = last (y :: l) d'). apply IH. Qed.
  Lemma follows_app h l1 : forall l2, follows h (l1 ++ l2) <-> follows h l1 /\ follows (last (map b_hash l1) h) l2.
  Proof.
    revert h. induction l1 as [|b l1 IH]; intros h l2; cbn [app follows].
    - cbn. tauto.
    - rewrite IH. replace (last (map b_hash (b :: l1)) h) with (last (map b_hash l1) (b_hash b)); [tauto|]. cbn [map]. destruct l1 as [|c l1]; auto. cbn [map].
      clear. generalize (b_hash b) as x. generalize (b_hash c) as y. generalize (map b_hash l1) as l. induction l as [|z l IH]; intros y x; auto. cbn [last] in *. destruct l; auto.
  Qed.
  Lemma path_heights r path : U r -> Forall U path -> follows (b_hash r) path -> (forall x, In x path -> b_height r < b_height x) /\ NoDup path.
  Proof.
    revert r. induction path as [|b l IH]; intros r Ur F P; [split; [intros ? []|constructor]|]. inversion F; subst. destruct P as (P & Q).
    pose proof (HON _ _ H1 Ur P) as E. destruct (IH b H1 H2 Q) as (A & ND). split.
    - intros x [<-|I]; [lia|]. specialize (A x I). lia.
    - constructor; auto. intros I. specialize (A b I). lia.
  Qed.
  Lemma fork_block n ch b : inv n ch -> In b (map f_block (n_forks n)) -> exists f, find_fork n (b_hash b) = Some f /\ f_block f = b.
  Proof.
    intros J I. destruct (find_fork n (b_hash b)) as [f|] eqn:F; [|destruct (in_forks_found n b I F)]. exists f. split; auto. destruct (fork_found _ _ _ F) as (IF & HF).
    apply (Uinj genesis U GOOD); auto; eapply inv_forks_U; eauto. apply in_map; auto.
  Qed.
  (** [r'] is the root of the node, [r] the block where the path starts *)
  Lemma walk_path n ch r r' : inv n ch -> U r -> get_block n (b_hash r) <> None -> b_height r' = b_height r ->
    forall path b f acc fuel, follows (b_hash r) (path ++ [b]) -> blocks_in n (path ++ [b]) -> f_block f = b -> (length path < fuel)%nat ->
    walk_line n r' fuel (Some f) acc = Some (path ++ b :: acc).
  Proof.
    intros J Ur G HR path. induction path as [|q path IH] using rev_ind; intros b f acc fuel P BI E L; (destruct fuel as [|k]; [lia|]); cbn [ReorgModel.walk_line]; rewrite E.
    - destruct P as (P & _). assert (Ub : U b) by (eapply inv_forks_U; eauto; apply BI; cbn; auto). rewrite (HON _ _ Ub Ur P), HR, N.eqb_refl, P.
      destruct (get_block n (b_hash r)); [reflexivity|congruence].
    - assert (FU : Forall U ((path ++ [q]) ++ [b])) by (eapply in_U; eauto). pose proof (path_heights r _ Ur FU P) as (HH & _).
      apply follows_app in P. destruct P as (P1 & P2). rewrite map_app in P2. cbn [map] in P2. rewrite last_last in P2. destruct P2 as (P2 & _).
      assert (Uq : U q) by (eapply inv_forks_U; eauto; apply BI; rewrite !in_app_iff; cbn; auto). assert (Ub : U b) by (eapply inv_forks_U; eauto; apply BI; rewrite !in_app_iff; cbn; auto).
      pose proof (HON _ _ Ub Uq P2) as Hb. specialize (HH q ltac:(rewrite !in_app_iff; cbn; auto)).
      destruct (N.eqb_spec (b_height b) (b_height r' + 1)); [lia|]. cbn [andb]. rewrite P2.
      destruct (fork_block n ch q J) as (g & Fg & Eg); [apply BI; rewrite !in_app_iff; cbn; auto|]. rewrite Fg.
      rewrite app_length in L. cbn [length] in L. rewrite (IH q g (b :: acc) k); auto; [now rewrite <- app_assoc| |lia]. intros x I. apply BI. rewrite in_app_iff. auto.
  Qed.
  Lemma path_line n ch r r' path b f : inv n ch -> n_root n = Some r' -> U r -> get_block n (b_hash r) <> None -> b_height r' = b_height r ->
    follows (b_hash r) (path ++ [b]) -> blocks_in n (path ++ [b]) -> f_block f = b -> fork_line n (Some f) = Some (path ++ [b]).
  Proof.
    intros J R Ur G HR P BI E. unfold ReorgModel.fork_line. rewrite R. eapply walk_path; eauto.
    assert (FU : Forall U (path ++ [b])) by (eapply in_U; eauto). pose proof (path_heights r _ Ur FU P) as (_ & ND).
    pose proof (NoDup_incl_length ND (fun x I => BI x I)) as L. rewrite map_length, app_length in L. cbn [length] in L. lia.
  Qed.
  (** the path from a block of a chain to its top *)
  Lemma chain_path l1 r l2 : uchain (l1 ++ r :: l2) -> follows (b_hash r) (rev l1).
  Proof.
    induction l1 as [|b l1 IH]; intros X; cbn; auto. apply follows_app. split; [apply IH; eapply uchain_tail; eauto|]. split; [|exact Logic.I].
    destruct l1 as [|c l1].
    - destruct X as (((E & _) & _) & _). exact E.
    - cbn [rev]. rewrite map_app. cbn [map]. rewrite last_last. destruct X as (((E & _) & _) & _). exact E.
  Qed.
  Lemma above_in l1 r l2 b : uchain (l1 ++ r :: l2) -> In b (l1 ++ r :: l2) -> (In b l1 <-> b_height r < b_height b).
  Proof.
    intros X I. pose proof (uchain_suffix _ _ _ _ _ l1 _ X) as Y. split.
    - intros J. apply in_split in J. destruct J as (m1 & m2 & ->). rewrite <- app_assoc in X. apply uchain_suffix in X. cbn in X. rewrite (head_height _ _ _ _ _ GOOD _ _ X).
      pose proof (head_height _ _ _ _ _ GOOD _ _ Y) as E. rewrite E, app_length. cbn [length]. lia.
    - intros L. apply in_app_iff in I. destruct I as [I|I]; auto. pose proof (height_in _ _ _ _ _ GOOD _ _ Y I) as H. rewrite (head_height _ _ _ _ _ GOOD _ _ Y) in L. cbn [length] in H. lia.
  Qed.
  Lemma cut_at l1 r l2 : uchain (l1 ++ r :: l2) -> cut (b_height r + 1) (l1 ++ r :: l2) = r :: l2.
  Proof.
    intros X. pose proof (uchain_suffix _ _ _ _ _ l1 _ X) as Y. rewrite (head_height _ _ _ _ _ GOOD _ _ Y). unfold cut. rewrite app_length. cbn [length].
    replace (length l1 + S (length l2) - N.to_nat (N.of_nat (length l2) + 1))%nat with (length l1 + 0)%nat by lia. rewrite skipn_app.
    rewrite (skipn_all2 l1) by lia. replace (length l1 + 0 - length l1)%nat with 0%nat by lia. reflexivity.
  Qed.

  (** ** applying a path *)
  Lemma apply_path path : forall n ch, inv n ch -> ch <> [] -> blocks_in n path -> follows (n_state n) path ->
    match apply_line path n with
    | Spent => False
    | Returns n' => inv n' (rev path ++ ch) /\ n_root n' = n_root n /\ same_forks n n'
    | Throws n' => exists done todo, path = done ++ todo /\ todo <> [] /\ inv n' (rev done ++ ch) /\ n_root n' = n_root n /\ same_forks n n'
    end.
  Proof.
    induction path as [|b l IH]; intros n ch J NE BI P.
    - cbn. unfold ReorgInvProofs.same_forks. auto.
    - rewrite apply_line_step. assert (Ub : U b) by (eapply inv_forks_U; eauto; apply BI; cbn; auto). destruct P as (P & Q). rewrite P, N.eqb_refl. cbn [negb].
      pose proof (line_step_inv _ _ _ _ _ GOOD b n ch J Ub NE P) as T. destruct (line_step _ _ _ b n) as [n1|n1|]; [| |destruct T].
      + destruct T as (J1 & R1 & S1). assert (BI1 : blocks_in n1 l) by (intros x I; unfold ReorgInvProofs.same_forks in S1; rewrite S1; apply BI; cbn; auto).
        specialize (IH n1 (b :: ch) J1 ltac:(discriminate) BI1). rewrite (proj1 (proj2 J1)) in IH. specialize (IH Q). cbn [rev]. rewrite <- app_assoc. cbn [app].
        destruct (apply_line l n1) as [n2|n2|]; auto.
        * destruct IH as (A1 & A2 & A3). split; auto. split; [congruence|]. unfold ReorgInvProofs.same_forks in *. congruence.
        * destruct IH as (done & todo & -> & NT & A1 & A2 & A3). exists (b :: done), todo. split; auto. split; auto. cbn [rev]. rewrite <- app_assoc. split; auto.
          split; [congruence|]. unfold ReorgInvProofs.same_forks in *. congruence.
      + destruct T as (J1 & R1 & S1 & _). exists [], (b :: l). split; auto. split; [discriminate|]. auto.
  Qed.
  Lemma skip_line pre : forall post n, (forall x, In x pre -> b_prev x <> n_state n) -> apply_line (pre ++ post) n = apply_line post n.
  Proof.
    induction pre as [|b l IH]; intros post n H; auto. cbn [app]. rewrite apply_line_step. destruct (N.eqb_spec (b_prev b) (n_state n)) as [E|E]; [destruct (H b); cbn; auto|].
    cbn [negb]. apply IH. intros x I. apply H. cbn; auto.
  Qed.
  Lemma common_prefix main line : forall at_, exists pre post, line = pre ++ post /\ last_common main line at_ = last (at_ :: pre) at_ /\ (forall x, In x pre -> In (b_hash x) main).
  Proof.
    induction line as [|b l IH]; intros at_; cbn [last_common].
    - exists [], []. repeat split; auto. intros ? [].
    - destruct (existsb (N.eqb (b_hash b)) main) eqn:E.
      + destruct (IH b) as (pre & post & -> & P2 & P3). exists (b :: pre), post. split; auto. split.
        * rewrite P2. change (last (at_ :: b :: pre) at_) with (last (b :: pre) at_). apply last_default.
        * intros x [<-|I]; auto. apply existsb_exists in E. destruct E as (y & Iy & Ey). apply N.eqb_eq in Ey. congruence.
      + exists [], (b :: l). repeat split; auto. intros ? [].
  Qed.
  Lemma last_cons {A} (l : list A) : forall x d, last (x :: l) d = last l x.
  Proof. destruct l as [|y l]; intros x d; auto. change (last (y :: l) d = last (y :: l) x). apply last_default. Qed.
  Lemma pre_heights pre : forall r, U r -> Forall U pre -> follows (b_hash r) pre ->
    b_height r <= b_height (last pre r) /\ forall x, In x pre -> b_height x <= b_height (last pre r).
  Proof.
    induction pre as [|y l IH]; intros r Ur F P; [cbn; split; [lia|intros ? []]|]. destruct P as (P1 & P2). inversion F; subst.
    pose proof (HON _ _ H1 Ur P1). destruct (IH y H1 H2 P2) as (A1 & A2). rewrite last_cons. split; [lia|]. intros x [<-|I]; auto.
  Qed.
  Lemma healthy_split n ch r : n_root n = Some r -> healthy n ch -> inv n ch -> exists l1 l2, ch = l1 ++ r :: l2 /\ blocks_in n l1.
  Proof.
    intros R (r0 & R0 & I & A) J. assert (r0 = r) by congruence. subst r0. apply in_split in I. destruct I as (l1 & l2 & ->). exists l1, l2. split; auto. intros b I.
    apply A; [apply in_app_iff; auto|]. apply (above_in l1 r l2 b); auto; [apply J|apply in_app_iff; auto].
  Qed.
  Lemma chain_U n ch b : inv n ch -> In b ch -> U b.
  Proof. intros (B & _) I. pose proof (B_chain _ _ _ _ _ _ _ B) as (_ & F). exact (proj1 (Forall_forall _ _) F _ I). Qed.
  Lemma main_line n ch r : inv n ch -> n_root n = Some r -> healthy n ch -> exists main, fork_line n None = Some main /\ incl main ch.
  Proof.
    intros J R H. destruct (healthy_split n ch r R H J) as (l1 & l2 & -> & BI). unfold ReorgModel.fork_line. rewrite R. rewrite (proj1 (proj2 J)).
    assert (Ur : U r) by (eapply chain_U; eauto; apply in_app_iff; cbn; auto).
    assert (G : get_block n (b_hash r) <> None) by (rewrite (get_chain K_eqb valid effects genesis U GOOD n (l1 ++ r :: l2)); [discriminate|apply J|apply in_app_iff; cbn; auto]).
    destruct l1 as [|b l1]; cbn [app top_hash].
    - rewrite N.eqb_refl. exists []. split; auto. intros ? [].
    - destruct (N.eqb_spec (b_hash b) (b_hash r)) as [E|_].
      + exists []. split; auto. intros ? [].
      + destruct (fork_block n _ b J) as (f & F & E); [apply BI; cbn; auto|]. rewrite F. exists (rev l1 ++ [b]).
        assert (P : follows (b_hash r) (rev l1 ++ [b])) by (apply (chain_path (b :: l1) r l2); apply J). assert (BI' : blocks_in n (rev l1 ++ [b])).
        { intros x I. apply BI. apply in_app_iff in I. destruct I as [I|[I|[]]]; [right; apply in_rev; auto|left; auto]. }
        split.
        * eapply walk_path; eauto. assert (FU : Forall U (rev l1 ++ [b])) by (eapply in_U; eauto). pose proof (path_heights r _ Ur FU P) as (_ & ND).
          pose proof (NoDup_incl_length ND (fun x I => BI' x I)) as L. rewrite map_length, app_length in L. cbn [length] in L. lia.
        * intros x I. apply in_app_iff in I. destruct I as [I|[I|[]]]; [right; apply in_app_iff; left; apply in_rev; auto|left; auto].
  Qed.

  (** ** the switch in memory *)
  Definition the_top (b : block) (path : list block) : N := last (map b_hash path) (b_hash b).
  Lemma top_app path ch b : top_hash (rev (path ++ [b]) ++ ch) = b_hash b.
  Proof. rewrite rev_app_distr. reflexivity. Qed.
  Lemma near_switch n ch r path b : inv n ch -> n_root n = Some r -> healthy n ch -> follows (b_hash r) (path ++ [b]) -> blocks_in n (path ++ [b]) ->
    exists main, fork_line n None = Some main /\
    let p := last_common (map b_hash main) (path ++ [b]) r in
    match apply_line (path ++ [b]) (if b_hash p =? n_state n then n else revert (b_height p + 1) n) with
    | Spent => False
    | Returns n' => exists ch', inv n' ch' /\ ch' <> [] /\ healthy n' ch' /\ n_root n' = Some r /\ same_forks n n' /\ n_state n' = b_hash b
    | Throws n' => exists ch', inv n' ch' /\ ch' <> [] /\ healthy n' ch' /\ n_root n' = Some r /\ same_forks n n'
    end.
  Proof.
    intros J R H P BI. destruct (main_line n ch r J R H) as (main & FL & MC). exists main. split; auto. cbn zeta.
    destruct (common_prefix (map b_hash main) (path ++ [b]) r) as (pre & post & E1 & E2 & E3). set (p := last_common _ _ _) in *.
    assert (Ir : In r ch) by (destruct H as (r0 & R0 & I0 & _); congruence). assert (FU : Forall U (path ++ [b])) by (eapply in_U; eauto).
    assert (PC : forall x, In x pre -> In x ch).
    { intros x I. specialize (E3 x I). apply in_map_iff in E3. destruct E3 as (y & E & Iy). replace x with y; [apply MC, Iy|]. apply (Uinj genesis U GOOD); auto; [eapply chain_U; eauto|].
      apply (proj1 (Forall_forall _ _) FU). rewrite E1. apply in_app_iff; auto. }
    assert (Ip : In p ch).
    { rewrite E2. destruct pre as [|x pre] using rev_ind; [exact Ir|]. rewrite app_comm_cons, last_last. apply PC. apply in_app_iff; cbn; auto. }
    pose proof P as P0. rewrite E1 in P. apply follows_app in P. destruct P as (P1 & P2).
    replace (last (map b_hash pre) (b_hash r)) with (b_hash p) in P2.
    2:{ rewrite E2. destruct pre as [|x pre] using rev_ind; auto. rewrite app_comm_cons, last_last, map_app. cbn [map]. now rewrite last_last. }
    apply in_split in Ip. destruct Ip as (l1 & l2 & Ech). pose proof J as J0. rewrite Ech in J0. pose proof (B_chain _ _ _ _ _ _ _ (proj1 J0)) as X.
    assert (HP : b_height r <= b_height p /\ forall x, In x pre -> b_height x <= b_height p).
    { assert (FP : Forall U pre) by (rewrite E1 in FU; apply Forall_app in FU; tauto). rewrite E2, last_cons. apply (pre_heights pre r); [apply (chain_U n ch r J Ir)|exact FP|exact P1]. }
    match goal with |- context [apply_line _ ?m] => set (n1 := m) end.
    assert (N1 : inv n1 (p :: l2) /\ n_root n1 = Some r /\ n_forks n1 = n_forks n).
    { unfold n1. destruct (N.eqb_spec (b_hash p) (n_state n)) as [E|E].
      - split; auto. replace (p :: l2) with ch; auto. apply (chain_same K_eqb valid effects genesis U GOOD); [apply J|eapply uchain_suffix; eauto|]. rewrite <- (proj1 (proj2 J)). auto.
      - assert (NE : ch <> []) by (rewrite Ech; destruct l1; discriminate). destruct (revert_ok _ _ _ _ _ GOOD (b_height p) n ch NE J) as (I' & _ & R' & F').
        rewrite Ech in I' at 1. rewrite cut_at in I' by auto. split; [exact I'|]. split; [rewrite R'; exact R|exact F']. }
    destruct N1 as (J1 & R1 & F1). assert (BI1 : blocks_in n1 (path ++ [b])) by (intros x I; rewrite F1; auto).
    assert (S1 : n_state n1 = b_hash p) by apply (proj1 (proj2 J1)).
    rewrite E1. rewrite skip_line.
    2:{ intros x I. rewrite S1. intros E. assert (Ux : U x) by (apply (chain_U n ch x J (PC x I))). assert (Up : U p) by (eapply chain_U; [exact J1|cbn; auto]). pose proof (HON _ _ Ux Up E). pose proof (proj2 HP x I). lia. }
    assert (BI2 : blocks_in n1 post) by (intros x I; apply BI1; rewrite E1; apply in_app_iff; auto). rewrite <- S1 in P2.
    pose proof (apply_path post n1 (p :: l2) J1 ltac:(discriminate) BI2 P2) as A.
    assert (HE : forall done todo n', post = done ++ todo -> n_root n' = n_root n1 -> same_forks n1 n' -> healthy n' (rev done ++ p :: l2)).
    { intros done todo n' E RR SS. exists r. split; [congruence|]. split.
      - apply in_app_iff. right. rewrite Ech in Ir. apply in_app_iff in Ir. destruct Ir as [Ir|Ir]; auto. exfalso. apply (above_in l1 p l2 r) in Ir; auto; [|apply in_app_iff; auto]. lia.
      - intros x I L. unfold ReorgInvProofs.same_forks in SS. rewrite SS, F1. apply in_app_iff in I. destruct I as [I|I].
        + apply in_rev in I. apply BI. rewrite E1, E. rewrite !in_app_iff. auto.
        + destruct H as (r0 & R0 & _ & A0). assert (r0 = r) by congruence. subst r0. apply A0; auto. rewrite Ech. apply in_app_iff. auto. }
    assert (SF : forall n', same_forks n1 n' -> same_forks n n') by (unfold ReorgInvProofs.same_forks; intros; congruence).
    destruct (apply_line post n1) as [n'|n'|]; auto.
    - destruct A as (A1 & A2 & A3). exists (rev post ++ p :: l2). split; auto. split; [intros Z; apply app_eq_nil in Z; destruct Z; discriminate|]. split; [apply (HE post []); auto; now rewrite app_nil_r|].
      split; [congruence|]. split; auto. rewrite (proj1 (proj2 A1)). destruct post as [|x post] using rev_ind.
      + rewrite app_nil_r in E1. cbn. rewrite E2, <- E1. rewrite app_comm_cons, last_last. reflexivity.
      + rewrite top_app. rewrite app_assoc in E1. apply app_inj_tail in E1. destruct E1 as (_ & ->). reflexivity.
    - destruct A as (done & todo & E & NT & A1 & A2 & A3). exists (rev done ++ p :: l2). split; auto. split; [intros Z; apply app_eq_nil in Z; destruct Z; discriminate|].
      split; [apply (HE done todo); auto|]. split; [congruence|auto].
  Qed.
  Lemma near_switch_back k pok n ch r path b f : inv n ch -> n_root n = Some r -> healthy n ch -> follows (b_hash r) (path ++ [b]) -> blocks_in n (path ++ [b]) -> f_block f = b ->
    (exists ch0, uchain ch0 /\ incl (path ++ [b]) ch0) ->
    exists n' ch', switch (S k) pok f n = Returns n' /\ inv n' ch' /\ ch' <> [] /\ healthy n' ch' /\ n_root n' = Some r /\ same_forks n n' /\ n_state n' = b_hash b.
  Proof.
    intros J R H P BI E (ch0 & X0 & IC). rewrite switch_eq, R. assert (Ir : In r ch) by (destruct H as (r0 & R0 & I0 & _); congruence).
    assert (Ur : U r) by (eapply chain_U; eauto).
    assert (G : get_block n (b_hash r) <> None) by (rewrite (get_chain K_eqb valid effects genesis U GOOD n ch); [discriminate|apply J|auto]).
    rewrite (path_line n ch r r path b f) by auto. destruct (near_switch n ch r path b J R H P BI) as (main & FL & A). rewrite FL. cbn zeta in A |- *.
    assert (PF : exists x l, path ++ [b] = x :: l /\ b_prev x = b_hash r) by (destruct path as [|x l]; cbn in P |- *; [exists b, []|exists x, (l ++ [b])]; split; auto; apply P).
    destruct PF as (x & l & PE & PX). rewrite PE in *. rewrite PX, N.eqb_refl. match goal with |- context [apply_line _ ?m] => set (n1 := m) in * end.
    assert (N1 : exists ch1, ch1 <> [] /\ inv n1 ch1 /\ n_forks n1 = n_forks n).
    { assert (NE : ch <> []) by (destruct ch; [destruct Ir|discriminate]). unfold n1. destruct (_ =? _); [exists ch; auto|].
      match goal with |- context [revert (?h + 1) n] => destruct (revert_ok _ _ _ _ _ GOOD h n ch NE J) as (I' & NE' & _ & F') end. eauto. }
    destruct N1 as (ch1 & NE1 & J1 & F1).
    destruct (apply_line_ok _ _ _ _ _ GOOD ch0 (x :: l) X0 n1 ch1 J1 NE1 IC) as (n2 & Z); [intros y I; rewrite F1; auto|]. rewrite Z in A |- *. cbn [ReorgRunProofs.go_back].
    destruct A as (ch' & A). exists n2, ch'. split; auto.
  Qed.
End REORG3.
