(** Proofs for ReorgModel.v: where a switch ends *)
Require Import List Arith NArith Bool Lia.
Import ListNotations.
From Verif Require Import DbSpec ReorgModel ReorgSpec ReorgProofs ReorgInvProofs ReorgRunProofs ReorgBackProofs ReorgDeepProofs.
Open Scope N_scope.

Section REORG5.
  Context {K V C : Type} (K_eqb : K -> K -> bool).
  Variable valid : view K V -> block -> option C.
  Variable effects : view K V -> block -> option C -> list (K * V).
  Variable genesis : block.
  Variable commit_delay : N.
  Variable U : block -> Prop.
  Hypothesis GOOD : good_blocks U genesis.
  Hypothesis HON : honest U.

  Notation scratch := (scratch K_eqb valid effects).
  Notation chain := (chain K_eqb valid effects genesis).
  Notation uchain := (uchain K_eqb valid effects genesis U).
  Notation ctx_for := (ctx_for K_eqb valid effects).
  Notation the_view := (the_view K V K_eqb).
  Notation db := (db K V).
  Notation node := (node K V C).
  Notation fork := (fork C).
  Notation find_fork := (find_fork K V C).
  Notation find_stored := (find_stored K V C).
  Notation get_block := (get_block K V C).
  Notation n_root := (n_root K V C).
  Notation n_forks := (n_forks K V C).
  Notation n_db := (n_db K V C).
  Notation n_stored := (n_stored K V C).
  Notation n_state := (n_state K V C).
  Notation n_rank := (n_rank K V C).
  Notation n_trace := (n_trace K V C).
  Notation f_block := (f_block C).
  Notation f_validated := (f_validated C).
  Notation f_ctx := (f_ctx C).
  Notation apply := (apply K V C K_eqb effects).
  Notation revert := (revert K V C).
  Notation write_block := (write_block K V C).
  Notation validate := (validate K V C K_eqb valid).
  Notation set_forks := (set_forks K V C).
  Notation set_root := (set_root K V C).
  Notation mk_node := (mk_node K V C).

  Notation inv := (inv K_eqb valid effects genesis U).
  Notation base := (base K_eqb valid effects genesis U).
  Notation fork_ok := (fork_ok K_eqb valid effects genesis U).
  Notation disk_ok := (disk_ok K_eqb valid effects genesis U).
  Notation outcome := (outcome K V C).
  Notation apply_line := (apply_line K V C K_eqb valid effects).
  Notation apply_root := (apply_root K V C K_eqb valid effects).
  Notation same_forks := (@same_forks K V C).
  Notation add_fork := (add_fork K V C).
  Notation reset := (reset K V C K_eqb effects genesis commit_delay).
  Notation restore := (restore K V C K_eqb valid effects genesis commit_delay).
  Notation switch := (switch K V C K_eqb valid effects genesis commit_delay).
  Notation walk_line := (walk_line K V C).
  Notation fork_line := (fork_line K V C).
  Notation start := (start K V C K_eqb effects genesis commit_delay).
  Notation step := (step K V C K_eqb valid effects genesis commit_delay).
  Notation run := (run K V C K_eqb valid effects genesis commit_delay).

  Notation ok := (ok K_eqb valid effects genesis U).
  Notation blocks_in := (@blocks_in K V C).
  Notation healthy := (@healthy K V C).
  Notation go_back := (go_back K_eqb valid effects genesis commit_delay).
  Notation or_genesis := (or_genesis genesis).


  Notation cover := (@cover K V C).
  Notation high := (@high K V C U).
  Notation full := (full K_eqb valid effects genesis U).
  Notation fine := (fine K_eqb valid effects genesis U).

  Lemma walk_first n r : forall fuel f acc line, walk_line n r fuel (Some f) acc = Some line -> exists first rest, line = first :: rest /\ b_height first = b_height r + 1.
  Proof.
    induction fuel as [|k IH]; intros f acc line E; cbn [ReorgModel.walk_line] in E; [discriminate|]. destruct (N.eqb_spec (b_height (f_block f)) (b_height r + 1)) as [H|H]; cbn [andb] in E.
    - destruct (get_block n (b_prev (f_block f))); [inversion E; subst; eauto|]. destruct (find_fork n (b_prev (f_block f))); [eauto|destruct k; discriminate].
    - destruct (find_fork n (b_prev (f_block f))); [eauto|destruct k; discriminate].
  Qed.
  Lemma line_first n r f first rest : n_root n = Some r -> fork_line n (Some f) = Some (first :: rest) -> b_height first = b_height r + 1.
  Proof. intros R E. unfold ReorgModel.fork_line in E. rewrite R in E. apply walk_first in E. destruct E as (x & l & E & H). congruence. Qed.
  Lemma cU n ch b : inv n ch -> In b ch -> U b.
  Proof. apply (chain_U K_eqb valid effects genesis U). Qed.

  Lemma apply_line_full line : forall n ch, full n ch -> blocks_in n line ->
    match apply_line line n with Spent => False | Returns n' | Throws n' => exists ch', full n' ch' /\ n_root n' = n_root n /\ same_forks n n' end.
  Proof.
    induction line as [|b l IH]; intros n ch FU BI.
    - cbn. exists ch. unfold ReorgInvProofs.same_forks. auto.
    - rewrite apply_line_step. assert (BI' : blocks_in n l) by (intros x I; apply BI; cbn; auto). destruct (N.eqb_spec (b_prev b) (n_state n)) as [E|E]; cbn [negb]; [|eapply IH; eauto].
      destruct FU as (J & NE & CO & HI). assert (Ub : U b) by (eapply inv_forks_U; eauto; apply BI; cbn; auto).
      pose proof (line_step_inv _ _ _ _ _ GOOD b n ch J Ub NE E) as T. destruct (line_step _ _ _ b n) as [n1|n1|]; [| |destruct T].
      + destruct T as (J1 & R1 & S1). assert (F1 : full n1 (b :: ch)).
        { split; auto. split; [discriminate|]. split; [|eapply high_same; eauto]. apply (cover_same n n1 ch); auto; [unfold ReorgInvProofs.same_forks in S1; rewrite S1; apply incl_refl|].
          intros r Rr Ir x [<-|Ix] L; [right; apply BI; cbn; auto|]. destruct Ir as [<-|Ir]; auto.
          exfalso. pose proof (height_in _ _ _ _ _ GOOD _ _ (B_chain _ _ _ _ _ _ _ (proj1 J)) Ix) as HX. rewrite (head_height _ _ _ _ _ GOOD _ _ (B_chain _ _ _ _ _ _ _ (proj1 J1))) in L. lia. }
        assert (BI1 : blocks_in n1 l) by (intros x I; unfold ReorgInvProofs.same_forks in S1; rewrite S1; auto). specialize (IH n1 (b :: ch) F1 BI1).
        destruct (apply_line l n1) as [n2|n2|]; auto; (destruct IH as (ch' & A & R2 & S2); exists ch'; split; [exact A|]; split; [congruence|unfold ReorgInvProofs.same_forks in *; congruence]).
      + destruct T as (J1 & R1 & S1 & _). exists ch. split; [|auto]. split; auto. split; auto. split; [|eapply high_same; eauto].
        apply (cover_same n n1 ch); auto. unfold ReorgInvProofs.same_forks in S1. rewrite S1. apply incl_refl.
  Qed.
  Lemma revert_full h n ch : full n ch -> full (revert (h + 1) n) (cut (h + 1) ch).
  Proof.
    intros (J & NE & CO & HI). destruct (revert_ok _ _ _ _ _ GOOD h n ch NE J) as (J1 & NE1 & R & F). split; auto. split; auto. split.
    - apply (cover_same n _ ch); auto; [rewrite F; apply incl_refl|]. intros r _ Ir b Ib _. left. split; apply (cut_incl (h + 1) ch); auto.
    - eapply high_same; eauto.
  Qed.
  Lemma full_root n ch ch1 r' : high n -> inv n (r' :: ch1) -> U r' -> (forall r, n_root n = Some r -> b_height r' = b_height r) -> (exists r, n_root n = Some r) -> ch = r' :: ch1 -> full (set_root (Some r') n) ch.
  Proof.
    intros HI J Ur HH (r & R) ->. split; [apply inv_root; auto|]. split; [discriminate|]. split.
    - intros x E _ b Ib L. cbn in E. inversion E; subst x. exfalso. pose proof (height_in _ _ _ _ _ GOOD _ _ (B_chain _ _ _ _ _ _ _ (proj1 J)) Ib) as Q.
      rewrite (head_height _ _ _ _ _ GOOD _ _ (B_chain _ _ _ _ _ _ _ (proj1 J))) in L. cbn [length] in Q. lia.
    - intros x E. cbn in E. inversion E; subst x. split; auto. intros b I. cbn in I. rewrite (HH r R). apply (HI r R); auto.
  Qed.
  (** the chain after the blocks below the new root were applied has the new root on top *)
  Lemma new_root_top (l : list block) (p : block) (ch : list block) : exists t, rev l ++ p :: ch = last l p :: t.
  Proof. destruct l as [|x l] using rev_ind; cbn; eauto. rewrite rev_app_distr, last_last. cbn. eauto. Qed.
  Lemma part_heights (l done todo : list block) p : U p -> Forall U l -> follows (b_hash p) l -> l = done ++ todo -> todo <> [] ->
    (forall x, In x done -> b_height p < b_height x /\ b_height x < b_height (last l p)) /\ b_height p < b_height (last l p).
  Proof.
    intros Up F P E NT. subst l. apply Forall_app in F. destruct F as (F1 & F2). pose proof P as P0. apply follows_app in P. destruct P as (P1 & P2).
    destruct todo as [|y todo] using rev_ind; [congruence|]. rewrite app_assoc, last_last.
    assert (D : b_height p <= b_height (last done p) /\ forall x, In x done -> b_height x <= b_height (last done p)) by (apply pre_heights with (U := U); auto).
    assert (Ud : U (last done p)). { destruct done as [|z done _] using rev_ind; [exact Up|]. rewrite last_last. apply Forall_app in F1. destruct F1 as (_ & F1). now inversion F1. }
    assert (EH : last (map b_hash done) (b_hash p) = b_hash (last done p)) by (clear; destruct done as [|z done] using rev_ind; auto; rewrite map_app; cbn [map]; now rewrite !last_last).
    rewrite EH in P2. pose proof (path_heights U HON (last done p) (todo ++ [y]) Ud F2 P2) as (Q & _). specialize (Q y ltac:(apply in_app_iff; cbn; auto)).
    pose proof (path_heights U HON p done Up F1 P1) as (Q1 & _). split; [|lia]. intros x I. split; [auto|]. pose proof (proj2 D x I). lia.
  Qed.
  Lemma done_full n n1 ch lp p l2 l done todo r : full n ch -> ch = lp ++ p :: l2 -> n_root n = Some r -> n_root n1 = n_root n -> n_forks n1 = n_forks n -> inv n1 (rev done ++ p :: l2) ->
    Forall U l -> follows (b_hash p) l -> l = done ++ todo -> todo <> [] -> b_height (last l p) = b_height r -> full n1 (rev done ++ p :: l2).
  Proof.
    intros (J & NE & CO & HI) E R R1 F1 J1 FL P EL NT HR. assert (Up : U p) by (apply (cU n ch p J); rewrite E; apply in_app_iff; cbn; auto).
    destruct (part_heights l done todo p Up FL P EL NT) as (H1 & H2). split; auto. split; [intros Z; apply app_eq_nil in Z; destruct Z; discriminate|].
    assert (X : uchain (p :: l2)). { pose proof (B_chain _ _ _ _ _ _ _ (proj1 J)) as X. rewrite E in X. eapply uchain_suffix; eauto. }
    split; [|eapply high_same; eauto; now rewrite F1]. apply (cover_same n n1 ch); auto; [rewrite F1; apply incl_refl|].
    intros r0 R0 Ir b Ib L. assert (r0 = r) by congruence. subst r0. exfalso. apply in_app_iff in Ib. destruct Ib as [Ib|Ib].
    - apply in_rev in Ib. destruct (H1 b Ib). lia.
    - pose proof (height_in _ _ _ _ _ GOOD _ _ X Ib) as Q. pose proof (head_height _ _ _ _ _ GOOD _ _ X) as Q2. cbn [length] in Q. lia.
  Qed.

  Definition out_fine (o : outcome) : Prop := match o with Returns n | Throws n => fine n | Spent => True end.
  Lemma go_back_fine k pok s o : (forall f n, fine n -> In f (n_forks n) -> out_fine (switch k pok f n)) -> out_fine o -> out_fine (go_back k pok s o).
  Proof.
    intros IH O. destruct o as [n|n|]; auto. cbn in O |- *. destruct (s =? n_state n); auto. destruct (find_fork n s) as [f|] eqn:F.
    - specialize (IH f n O (proj1 (fork_found _ _ _ F))). destruct (switch k pok f n); auto.
    - destruct (n_root n) as [r|]; auto. destruct (s =? b_hash r); auto. destruct O as (ch & O). exists (cut (b_height r + 1) ch). apply revert_full; auto.
  Qed.
  Lemma restore_same_end line n ch : full n ch -> restore line (n_state n) n = n.
  Proof.
    intros (J & NE & _). pose proof (B_chain _ _ _ _ _ _ _ (proj1 J)) as X.
    destruct (restore_cases K_eqb valid effects genesis commit_delay U GOOD line n ch ch J NE X NE (B_in _ _ _ _ _ _ _ (proj1 J))) as [(l1 & N1 & E & _)|(E & _)].
    - exfalso. apply (f_equal (@length _)) in E. rewrite app_length in E. destruct l1; [congruence|]. cbn [length] in E. lia.
    - rewrite <- (proj1 (proj2 J)) in E. exact E.
  Qed.
  Lemma switch_fine pok : forall fuel f n, fine n -> In f (n_forks n) -> out_fine (switch fuel pok f n).
  Proof.
    induction fuel as [|k IH]; intros f n O IF; [exact I|]. rewrite switch_eq. destruct (fork_line n (Some f)) as [line|] eqn:FL; [|exact O].
    pose proof (fork_line_in n f line IF FL) as LI. destruct line as [|first rest] eqn:EL; [exact O|]. destruct (n_root n) as [r|] eqn:R; [|exact O].
    pose proof (line_first n r f first rest R FL) as HF. rewrite <- EL in *. destruct O as (ch & FU). pose proof FU as (J & NE & CO & HI). destruct (b_prev first =? b_hash r).
    - destruct (fork_line n None) as [main|]; [|exists ch; auto]. cbn zeta. match goal with |- context [apply_line _ ?m] => set (n1 := m) end.
      assert (P : exists ch1, full n1 ch1 /\ n_forks n1 = n_forks n).
      { unfold n1. destruct (_ =? _); [exists ch; auto|]. eexists. split; [apply revert_full; exact FU|reflexivity]. }
      destruct P as (ch1 & F1 & FE). apply go_back_fine; auto. assert (BI1 : blocks_in n1 line) by (intros x Q; rewrite FE; auto).
      pose proof (apply_line_full line n1 ch1 F1 BI1) as A. destruct (apply_line line n1); [| |exact I]; destruct A as (c & A1 & _); exists c; auto.
    - destruct (get_block n (b_prev first)) as [r'|] eqn:G; [|exists ch; auto]. destruct (get_found _ _ _ _ _ _ _ _ _ (proj1 J) G) as (Ur & Hr).
      assert (HR : b_height r' = b_height r). { assert (Uf : U first) by (eapply inv_forks_U; eauto; apply LI; rewrite EL; cbn; auto). pose proof (HON _ _ Uf Ur (eq_sym Hr)). lia. }
      destruct (walk_root K V C n _ (Some r') []) as [(p, l)|] eqn:W; [|cbn; rewrite (restore_same_end line n ch FU); exists ch; auto].
      destruct (walk_root_spec _ _ _ _ _ GOOD n ch J _ _ _ _ _ Ur W) as (m & El & Ip & P & LA & NI & FM). rewrite app_nil_r in El. subst m.
      apply in_split in Ip. destruct Ip as (lp & l2 & Ech). pose proof (revert_full (b_height p) n ch FU) as FR. rewrite Ech in FR at 1.
      rewrite cut_at with (K_eqb := K_eqb) (valid := valid) (effects := effects) (genesis := genesis) (U := U) in FR by (auto; rewrite <- Ech; apply J).
      pose proof (apply_root_parts _ _ _ _ _ GOOD pok l _ _ (proj1 FR) ltac:(discriminate) FM) as A. destruct (apply_root pok l _) as [n1|n1|] eqn:AR; [| |exact I].
      + destruct A as (A & R1 & F1). apply go_back_fine; auto. destruct (new_root_top l p l2) as (t & Et). rewrite Et, LA in A.
        assert (F2 : full (set_root (Some r') n1) (r' :: t)).
        { apply (full_root n1 _ t); auto.
          - eapply high_same; [exact HI|rewrite R1; reflexivity|now rewrite F1].
          - intros x Rx. rewrite R1 in Rx. cbn in Rx. assert (x = r) by congruence. subst x. exact HR.
          - exists r. rewrite R1. exact R. }
        assert (BI1 : blocks_in (set_root (Some r') n1) line) by (intros x Q; cbn; rewrite F1; apply LI, Q).
        pose proof (apply_line_full line _ _ F2 BI1) as Q. destruct (apply_line line _); [| |exact I]; destruct Q as (c & A1 & _); exists c; auto.
      + destruct A as (done & todo & E1 & NT & J1 & R1 & F1 & _).
        assert (FD : full n1 (rev done ++ p :: l2)) by (eapply (done_full n n1 ch lp p l2 l done todo r); eauto; rewrite LA; auto).
        assert (IC : incl ch (n_stored n1)).
        { eapply incl_tran; [apply (B_in _ _ _ _ _ _ _ (proj1 J))|]. pose proof (apply_root_stored K_eqb valid effects pok l _ n1 (or_intror AR)) as Q. exact Q. }
        rewrite (proj1 (proj2 J)). cbn. destruct (restore_cases K_eqb valid effects genesis commit_delay U GOOD line n1 _ ch J1 ltac:(intros Z; apply app_eq_nil in Z; destruct Z; discriminate) (B_chain _ _ _ _ _ _ _ (proj1 J)) NE IC) as [(l1 & _ & _ & Q & _)|(Q & _)].
        * exists ch. exact Q.
        * rewrite Q. eexists. exact FD.
  Qed.

  (** ** a fork that starts at the root *)
  Lemma near_result pok n ch r path b f : full n ch -> n_root n = Some r -> In r ch -> follows (b_hash r) (path ++ [b]) -> blocks_in n (path ++ [b]) -> f_block f = b ->
    match switch 2 pok f n with
    | Returns n' => exists ch', inv n' ch' /\ In r ch' /\ n_root n' = Some r /\ n_state n' = b_hash b
    | Throws n' => exists ch', inv n' ch' /\ In r ch' /\ n_root n' = Some r /\ n_state n' = n_state n /\ ~ exists ch0, uchain ch0 /\ incl (path ++ [b]) ch0
    | Spent => False
    end.
  Proof.
    intros FU R Ir P BI E. pose proof FU as (J & NE & CO & HI). assert (H : healthy n ch) by (apply (cover_healthy n ch r); auto). assert (Ur : U r) by (apply (cU n ch r J Ir)).
    assert (HR : forall n' ch', healthy n' ch' -> n_root n' = Some r -> In r ch') by (intros n' ch' (r0 & R0 & I0 & _) R'; congruence).
    assert (G : get_block n (b_hash r) <> None) by (rewrite (get_chain K_eqb valid effects genesis U GOOD n ch); [discriminate|apply J|auto]).
    rewrite switch_eq, R. rewrite (path_line K_eqb valid effects genesis U GOOD HON n ch r r path b f) by auto.
    destruct (near_switch K_eqb valid effects genesis U GOOD HON n ch r path b J R H P BI) as (main & FL & A). rewrite FL. cbn zeta in A |- *.
    assert (PF : exists x l, path ++ [b] = x :: l /\ b_prev x = b_hash r) by (destruct path as [|x l]; cbn in P |- *; [exists b, []|exists x, (l ++ [b])]; split; auto; apply P).
    destruct PF as (x & l & PE & PX). rewrite PE in A, P, BI |- *. rewrite PX, N.eqb_refl. match goal with |- context [apply_line _ ?m] => set (n1 := m) in * end.
    destruct (apply_line (x :: l) n1) as [n2|n2|] eqn:AL; auto.
    - cbn. destruct A as (c & A1 & A2 & A3 & A4 & A5 & A6). exists c. split; auto. split; [eapply HR; eauto|]. auto.
    - destruct A as (c & A1 & A2 & A3 & A4 & A5). unfold ReorgRunProofs.go_back. unfold ReorgInvProofs.same_forks in A5.
      assert (BAD : ~ exists ch0, uchain ch0 /\ incl (x :: l) ch0).
      { intros (ch0 & X0 & IC). assert (N1 : exists ch1, ch1 <> [] /\ inv n1 ch1 /\ n_forks n1 = n_forks n).
        { unfold n1. destruct (_ =? _); [exists ch; auto|].
          match goal with |- context [revert (?h + 1) n] => destruct (revert_ok _ _ _ _ _ GOOD h n ch NE J) as (I' & NE' & _ & F') end. eauto. }
        destruct N1 as (ch1 & NE1 & J1 & F1).
        destruct (apply_line_ok _ _ _ _ _ GOOD ch0 (x :: l) X0 n1 ch1 J1 NE1 IC) as (n3 & Z); [intros y I; rewrite F1; auto|]. congruence. }
      destruct (N.eqb_spec (n_state n) (n_state n2)) as [S|S]; [exists c; split; auto; split; [eapply HR; eauto|auto]|].
      destruct (healthy_split _ _ _ _ _ GOOD n ch r R H J) as (l1 & l2 & Ech & BI1). assert (X : uchain (l1 ++ r :: l2)) by (rewrite <- Ech; apply J).
      assert (T : n_state n = top_hash (l1 ++ r :: l2)) by (rewrite <- Ech; apply J). rewrite T. destruct l1 as [|b0 l1]; cbn [app top_hash].
      + destruct (find_fork n2 (b_hash r)) as [f0|] eqn:F0.
        * exfalso. destruct (fork_found _ _ _ F0) as (I0 & H0). assert (Q : f_block f0 = r) by (apply (Uinj genesis U GOOD); auto; eapply inv_forks_U; eauto; apply in_map; auto).
          pose proof (proj2 (HI r R) r) as L. rewrite <- A5 in L. apply N.lt_irrefl with (b_height r). apply L. rewrite <- Q. apply in_map; auto.
        * rewrite A4, N.eqb_refl. pose proof (HR _ _ A3 A4) as Ir2. apply in_split in Ir2. destruct Ir2 as (m1 & m2 & Ec). destruct (revert_ok _ _ _ _ _ GOOD (b_height r) n2 c A2 A1) as (I' & _ & R' & _).
          rewrite Ec in I' at 1. rewrite cut_at with (K_eqb := K_eqb) (valid := valid) (effects := effects) (genesis := genesis) (U := U) in I' by (auto; rewrite <- Ec; apply A1).
          exists (r :: m2). split; auto. split; [cbn; auto|]. split; [rewrite R'; exact A4|]. split; auto. apply I'.
      + destruct (fork_block K_eqb valid effects genesis U GOOD n2 c b0 A1) as (f0 & F0 & B0); [rewrite A5; apply BI1; cbn; auto|]. rewrite F0.
        assert (BI2 : blocks_in n2 (rev l1 ++ [b0])). { intros y I. rewrite A5. apply BI1. apply in_app_iff in I. destruct I as [I|[I|[]]]; [right; apply in_rev; auto|left; auto]. }
        assert (P2 : follows (b_hash r) (rev l1 ++ [b0])) by (apply (chain_path K_eqb valid effects genesis U (b0 :: l1) r l2); auto).
        destruct (near_switch_back K_eqb valid effects genesis commit_delay U GOOD HON 0 pok n2 c r (rev l1) b0 f0 A1 A4 A3 P2 BI2 B0) as (n3 & c3 & Q1 & Q2 & Q3 & Q4 & Q5 & Q6 & Q7).
        { exists ((b0 :: l1) ++ r :: l2). split; auto. intros y I. apply in_app_iff in I. cbn. destruct I as [I|[I|[]]]; [right; apply in_app_iff; left; apply in_rev; auto|left; auto]. }
        rewrite Q1. exists c3. split; auto. split; [eapply HR; eauto|auto].
  Qed.

  (** ** a fork that starts at another block of the same height *)
  Lemma deep_result pok n ch r r' path b f : full n ch -> n_root n = Some r -> In r ch -> n_state n <> b_hash r -> get_block n (b_hash r') = Some r' -> b_height r' = b_height r -> r' <> r ->
    (forall x, In x ch -> pok x = true) ->
    follows (b_hash r') (path ++ [b]) -> blocks_in n (path ++ [b]) -> f_block f = b ->
    match switch 2 pok f n with
    | Returns n' => n_state n' = b_hash b
    | Throws n' => n_state n' = n_state n \/ (n_root n' = Some r /\ hash_at K V (n_db n') (b_height r) = None)
    | Spent => False
    end.
  Proof.
    intros FU R Ir NS Gr HR NR PO P BI E. pose proof FU as (J & NE & CO & HI). assert (H : healthy n ch) by (apply (cover_healthy n ch r); auto). assert (Ur : U r) by (apply (cU n ch r J Ir)).
    destruct (get_found _ _ _ _ _ _ _ _ _ (proj1 J) Gr) as (Ur' & _).
    assert (NH : b_hash r' <> b_hash r) by (intros Q; apply NR; apply (Uinj genesis U GOOD); auto).
    destruct (healthy_split _ _ _ _ _ GOOD n ch r R H J) as (l1 & l2 & Ech & BI1). assert (X : uchain ch) by apply J. assert (T : n_state n = top_hash ch) by apply J.
    destruct l1 as [|b0 l1]; [exfalso; apply NS; rewrite T, Ech; reflexivity|].
    rewrite switch_eq, R. rewrite (path_line K_eqb valid effects genesis U GOOD HON n ch r' r path b f) by (auto; congruence).
    assert (PF : exists x l, path ++ [b] = x :: l /\ b_prev x = b_hash r') by (destruct path as [|x l]; cbn in P |- *; [exists b, []|exists x, (l ++ [b])]; split; auto; apply P).
    destruct PF as (x & l & PE & PX). set (line := path ++ [b]) in *. rewrite PE. rewrite PX. rewrite <- PE. destruct (N.eqb_spec (b_hash r') (b_hash r)) as [|_]; [congruence|]. rewrite Gr.
    destruct (walk_root K V C n _ (Some r') []) as [(p, lr)|] eqn:W; [|rewrite (restore_same_end line n ch FU); auto].
    destruct (walk_root_spec _ _ _ _ _ GOOD n ch J _ _ _ _ _ Ur' W) as (m & El & Ip & Pm & LA & NI & FM). rewrite app_nil_r in El. subst m.
    assert (Up : U p) by (apply (cU n ch p J Ip)). apply in_split in Ip. destruct Ip as (lp & lq & Ep). pose proof (revert_full (b_height p) n ch FU) as FR. rewrite Ep in FR at 1.
    rewrite cut_at with (K_eqb := K_eqb) (valid := valid) (effects := effects) (genesis := genesis) (U := U) in FR by (auto; rewrite <- Ep; apply J).
    set (n0 := revert (b_height p + 1) n) in *. assert (R0 : n_root n0 = Some r) by exact R. assert (F0 : n_forks n0 = n_forks n) by reflexivity. assert (S0 : n_stored n0 = n_stored n) by reflexivity.
    pose proof (apply_root_parts _ _ _ _ _ GOOD pok lr n0 _ (proj1 FR) ltac:(discriminate) FM) as A. destruct (apply_root pok lr n0) as [n1|n1|] eqn:AR; [| |destruct A].
    - destruct A as (A & R1 & F1). destruct (new_root_top lr p lq) as (t & Et). rewrite Et, LA in A. set (n1' := set_root (Some r') n1).
      assert (A' : inv n1' (r' :: t)) by (apply inv_root; exact A).
      assert (BIl : blocks_in n1' line) by (intros y Q; cbn; rewrite F1, F0; apply BI, Q). assert (Pl : follows (n_state n1') line) by (rewrite (proj1 (proj2 A')); exact P).
      pose proof (apply_path K_eqb valid effects genesis U GOOD line n1' (r' :: t) A' ltac:(discriminate) BIl Pl) as AP. destruct (apply_line line n1') as [n2|n2|] eqn:AL; auto.
      + cbn. destruct AP as (Q & _). rewrite (proj1 (proj2 Q)). unfold line. apply top_app.
      + destruct AP as (done & todo & _ & _ & J2 & R2 & S2). unfold ReorgRunProofs.go_back. destruct (N.eqb_spec (n_state n) (n_state n2)) as [|SN]; [auto|].
        unfold ReorgInvProofs.same_forks in S2. cbn in R2, S2. rewrite F1, F0 in S2. set (ch2 := rev done ++ r' :: t) in *. assert (NE2 : ch2 <> []) by (intros Z; apply app_eq_nil in Z; destruct Z; discriminate).
        assert (ST : incl ch (n_stored n2)).
        { eapply incl_tran; [apply (B_in _ _ _ _ _ _ _ (proj1 J))|]. rewrite <- S0. eapply incl_tran; [apply (apply_root_stored K_eqb valid effects pok lr n0 n1 (or_introl AR))|].
          apply (apply_line_stored K_eqb valid effects line n1' n2 (or_intror AL)). }
        rewrite T, Ech. cbn [app top_hash].
        destruct (fork_block K_eqb valid effects genesis U GOOD n2 ch2 b0 J2) as (f0 & Ff0 & B0); [rewrite S2; apply BI1; cbn; auto|]. rewrite Ff0.
        assert (BI2 : blocks_in n2 (rev l1 ++ [b0])). { intros y I. rewrite S2. apply BI1. apply in_app_iff in I. destruct I as [I|[I|[]]]; [right; apply in_rev; auto|left; auto]. }
        assert (P2 : follows (b_hash r) (rev l1 ++ [b0])) by (apply (chain_path K_eqb valid effects genesis U (b0 :: l1) r l2); rewrite <- Ech; auto).
        assert (G2 : forall y, In y ch -> get_block n2 (b_hash y) = Some y) by (intros y I; apply (get_in K_eqb valid effects genesis U GOOD n2 ch2 y (proj1 J2)), ST, I).
        rewrite switch_eq, R2. rewrite (path_line K_eqb valid effects genesis U GOOD HON n2 ch2 r r' (rev l1) b0 f0) by (auto; rewrite (G2 r Ir); discriminate).
        assert (PF2 : exists x l, rev l1 ++ [b0] = x :: l /\ b_prev x = b_hash r) by (destruct (rev l1) as [|y l']; cbn in P2 |- *; [exists b0, []|exists y, (l' ++ [b0])]; split; auto; apply P2).
        destruct PF2 as (x2 & m2 & PE2 & PX2). set (line2 := rev l1 ++ [b0]) in *. rewrite PE2. rewrite PX2. rewrite <- PE2. destruct (N.eqb_spec (b_hash r) (b_hash r')) as [|_]; [congruence|]. rewrite (G2 r Ir).
        assert (LC : (length ch <= length (n_stored n2))%nat) by (apply NoDup_incl_length; auto; eapply chain_nodup; eauto).
        destruct (walk_root_old K_eqb valid effects genesis U GOOD n2 ch2 ch J2 NE2 l2 r [] (S (length (n_forks n2) + length (n_stored n2)))) as (p2 & lr2 & W2 & IC2); auto.
        { apply (uchain_suffix K_eqb valid effects genesis U (b0 :: l1)). cbn [app]. cbn [app] in Ech. rewrite <- Ech. exact X. }
        { intros y I. apply G2. rewrite Ech. cbn [app]. right. apply in_app_iff. auto. }
        { rewrite Ech in LC. cbn [app length] in LC. rewrite app_length in LC. cbn [length] in LC. lia. }
        { intros ? []. }
        { intros y I. rewrite Ech. cbn [app]. right. apply in_app_iff. auto. }
        rewrite W2. destruct (walk_root_spec _ _ _ _ _ GOOD n2 ch2 J2 _ _ _ _ _ Ur W2) as (m3 & El3 & Ip3 & Pm3 & LA3 & NI3 & FM3). rewrite app_nil_r in El3. subst m3.
        destruct (revert_ok _ _ _ _ _ GOOD (b_height p2) n2 ch2 NE2 J2) as (J3 & _ & _ & F3). apply in_split in Ip3. destruct Ip3 as (lp3 & lq3 & Ep3). rewrite Ep3 in J3 at 1.
        rewrite cut_at with (K_eqb := K_eqb) (valid := valid) (effects := effects) (genesis := genesis) (U := U) in J3 by (auto; rewrite <- Ep3; apply J2).
        set (n3 := revert (b_height p2 + 1) n2) in *.
        destruct (apply_root_again K_eqb valid effects genesis U GOOD pok ch lr2 X n3 (p2 :: lq3) J3 ltac:(discriminate) IC2) as (n4 & AR4); [intros y I; apply PO, IC2, I|rewrite (proj1 (proj2 J3)); exact Pm3|].
        pose proof (apply_root_parts _ _ _ _ _ GOOD pok lr2 n3 _ J3 ltac:(discriminate) FM3) as A4. rewrite AR4 in A4 |- *. destruct A4 as (A4 & R4 & F4).
        destruct (new_root_top lr2 p2 lq3) as (t3 & Et3). rewrite Et3, LA3 in A4. set (n4' := set_root (Some r) n4). assert (A4' : inv n4' (r :: t3)) by (apply inv_root; exact A4).
        assert (BI4 : blocks_in n4' line2) by (intros y Q; cbn; rewrite F4, F3; apply BI2, Q).
        assert (IC4 : incl line2 ch). { intros y I. rewrite Ech. apply in_app_iff. left. apply in_app_iff in I. destruct I as [I|[I|[]]]; [right; apply in_rev; auto|left; auto]. }
        destruct (apply_line_ok _ _ _ _ _ GOOD ch line2 X n4' (r :: t3) A4' ltac:(discriminate) IC4 BI4) as (n5 & AL5). rewrite AL5.
        assert (P5 : follows (n_state n4') line2) by (rewrite (proj1 (proj2 A4')); exact P2).
        pose proof (apply_path K_eqb valid effects genesis U GOOD line2 n4' (r :: t3) A4' ltac:(discriminate) BI4 P5) as A5. rewrite AL5 in A5. destruct A5 as (A5 & _). left.
        rewrite (proj1 (proj2 A5)). unfold line2. apply top_app.
    - destruct A as (done & todo & E1 & NT & J1 & R1 & F1 & D0). rewrite T.
      assert (ST : incl ch (n_stored n1)).
      { eapply incl_tran; [apply (B_in _ _ _ _ _ _ _ (proj1 J))|]. rewrite <- S0. apply (apply_root_stored K_eqb valid effects pok lr n0 n1 (or_intror AR)). }
      destruct (restore_cases K_eqb valid effects genesis commit_delay U GOOD line n1 _ ch J1 ltac:(intros Z; apply app_eq_nil in Z; destruct Z; discriminate) X NE ST) as [(m1 & _ & _ & Q & _)|(Q & NP)].
      + left. apply Q.
      + rewrite Q. destruct done as [|d done].
        * left. cbn in J1. destruct lp as [|y lp _] using rev_ind; [rewrite Ep; apply J1|]. exfalso. apply (NP y); [rewrite Ep, !in_app_iff; cbn; auto|].
          rewrite (proj1 (proj2 J1)). cbn. rewrite <- app_assoc in Ep. cbn [app] in Ep. pose proof X as X1. rewrite Ep in X1. rewrite (chain_prev K_eqb valid effects genesis U GOOD _ _ _ X1). reflexivity.
        * right. split; [rewrite R1; exact R|]. destruct (part_heights lr (d :: done) todo p Up FM Pm E1 NT) as (H1 & H2). rewrite LA, HR in H1, H2.
          rewrite (B_db _ _ _ _ _ _ _ (proj1 J1)), (scratch_hash _ _ _ _ _ GOOD) by apply J1. destruct (at_height (b_height r) _) as [y|] eqn:AH; auto. exfalso.
          destruct (at_height_in _ _ _ AH) as (Iy & Hy). apply in_app_iff in Iy. destruct Iy as [Iy|Iy]; [apply in_rev in Iy; destruct (H1 y Iy); lia|].
          assert (Xp : uchain (p :: lq)) by (pose proof X as X1; rewrite Ep in X1; eapply uchain_suffix; eauto).
          pose proof (height_in _ _ _ _ _ GOOD _ _ Xp Iy) as Z1. pose proof (head_height _ _ _ _ _ GOOD _ _ Xp) as Z2. cbn [length] in Z1. lia.
  Qed.
End REORG5.
