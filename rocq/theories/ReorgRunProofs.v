(** Proofs for ReorgModel.v: the operations *)
Require Import List Arith NArith Bool Lia.
Import ListNotations.
From Verif Require Import DbSpec ReorgModel ReorgSpec ReorgProofs ReorgInvProofs.
Open Scope N_scope.

Section REORG2.
  Context {K V C : Type} (K_eqb : K -> K -> bool).
  Variable valid : view K V -> block -> option C.
  Variable effects : view K V -> block -> option C -> list (K * V).
  Variable genesis : block.
  Variable commit_delay : N.
  Variable U : block -> Prop.
  Hypothesis GOOD : good_blocks U genesis.

  Notation scratch := (scratch K_eqb valid effects).
  Notation chain := (chain K_eqb valid effects genesis).
  Notation uchain := (uchain K_eqb valid effects genesis U).
  Notation ctx_for := (ctx_for K_eqb valid effects).
  Notation the_view := (the_view K V K_eqb).
  Notation db := (db K V).
  Notation node := (node K V C).
  Notation fork := (fork C).
  Notation find_fork := (find_fork K V C).
  Notation find_stored := (find_stored K V C).
  Notation get_block := (get_block K V C).
  Notation n_root := (n_root K V C).
  Notation n_forks := (n_forks K V C).
  Notation n_db := (n_db K V C).
  Notation n_stored := (n_stored K V C).
  Notation n_state := (n_state K V C).
  Notation n_rank := (n_rank K V C).
  Notation n_trace := (n_trace K V C).
  Notation f_block := (f_block C).
  Notation f_validated := (f_validated C).
  Notation f_ctx := (f_ctx C).
  Notation apply := (apply K V C K_eqb effects).
  Notation revert := (revert K V C).
  Notation write_block := (write_block K V C).
  Notation validate := (validate K V C K_eqb valid).
  Notation set_forks := (set_forks K V C).
  Notation set_root := (set_root K V C).
  Notation mk_node := (mk_node K V C).

  Notation inv := (inv K_eqb valid effects genesis U).
  Notation base := (base K_eqb valid effects genesis U).
  Notation fork_ok := (fork_ok K_eqb valid effects genesis U).
  Notation disk_ok := (disk_ok K_eqb valid effects genesis U).
  Notation outcome := (outcome K V C).
  Notation apply_line := (apply_line K V C K_eqb valid effects).
  Notation apply_root := (apply_root K V C K_eqb valid effects).
  Notation same_forks := (@same_forks K V C).
  Notation add_fork := (add_fork K V C).
  Notation reset := (reset K V C K_eqb effects genesis commit_delay).
  Notation restore := (restore K V C K_eqb valid effects genesis commit_delay).
  Notation switch := (switch K V C K_eqb valid effects genesis commit_delay).
  Notation walk_line := (walk_line K V C).
  Notation fork_line := (fork_line K V C).
  Notation start := (start K V C K_eqb effects genesis commit_delay).
  Notation step := (step K V C K_eqb valid effects genesis commit_delay).
  Notation run := (run K V C K_eqb valid effects genesis commit_delay).

  Definition ok (n : node) : Prop := exists ch, ch <> [] /\ inv n ch.
  Definition blocks_in (n : node) (l : list block) : Prop := forall b, In b l -> In b (map f_block (n_forks n)).

  Lemma inv_forks_U n ch b : inv n ch -> In b (map f_block (n_forks n)) -> U b.
  Proof. intros (B & _) I. apply in_map_iff in I. destruct I as (f & <- & I). pose proof (proj1 (Forall_forall _ _) (B_forks _ _ _ _ _ _ _ B) _ I) as (X & _). exact X. Qed.
  Lemma cut_ne {A} h (ch : list A) : ch <> [] -> cut (h + 1) ch <> [].
  Proof.
    intros NE E. assert (0 < N.of_nat (length ch)) by (destruct ch; [congruence|cbn [length]; lia]). destruct (N.le_gt_cases (N.of_nat (length ch)) (h + 1)).
    - rewrite cut_all in E by auto. congruence.
    - pose proof (cut_length (h + 1) ch ltac:(lia)) as L. rewrite E in L. cbn in L. lia.
  Qed.
  Lemma revert_ok h n ch : ch <> [] -> inv n ch -> inv (revert (h + 1) n) (cut (h + 1) ch) /\ cut (h + 1) ch <> [] /\ n_root (revert (h + 1) n) = n_root n /\ n_forks (revert (h + 1) n) = n_forks n.
  Proof.
    intros NE (B & T). pose proof (revert_inv _ _ _ _ _ GOOD (h + 1) n ch B (or_intror T)) as (I & R & F & _). split; auto. split; auto. apply cut_ne; auto.
  Qed.

  (** ** a line of blocks *)
  Lemma apply_line_inv line : forall n ch, inv n ch -> ch <> [] -> Forall U line ->
    match apply_line line n with
    | Spent => False
    | Returns n' | Throws n' => exists ch', ch' <> [] /\ inv n' ch' /\ n_root n' = n_root n /\ same_forks n n'
    end.
  Proof.
    induction line as [|b l IH]; intros n ch I NE F.
    - cbn. exists ch. unfold ReorgInvProofs.same_forks. auto.
    - rewrite apply_line_step. inversion F as [|? ? Ub F']; subst. destruct (N.eqb_spec (b_prev b) (n_state n)) as [E|E]; cbn [negb]; [|eapply IH; eauto].
      pose proof (line_step_inv _ _ _ _ _ GOOD b n ch I Ub NE E) as S. destruct (line_step _ _ _ b n) as [n1|n1|]; auto.
      + destruct S as (I1 & R1 & S1). specialize (IH n1 (b :: ch) I1 ltac:(discriminate) F'). destruct (apply_line l n1) as [n2|n2|]; auto;
          (destruct IH as (ch' & A & B & R2 & S2); exists ch'; split; auto; split; auto; split; [congruence|]; unfold ReorgInvProofs.same_forks in *; congruence).
      + destruct S as (I1 & R1 & S1 & _). exists ch. auto.
  Qed.
  Lemma in_forks_found n b : In b (map f_block (n_forks n)) -> find_fork n (b_hash b) <> None.
  Proof. intros I E. apply in_map_iff in I. destruct I as (f & <- & I). apply (find_none _ _ E) in I. cbn in I. rewrite N.eqb_refl in I. discriminate. Qed.
  Lemma in_chain_next b n ch ch0 : inv n ch -> ch <> [] -> uchain ch0 -> In b ch0 -> b_prev b = n_state n -> uchain (b :: ch).
  Proof.
    intros (B & T1 & _) NE X I E. apply in_split in I. destruct I as (l1 & l2 & ->). apply uchain_suffix in X. assert (l2 = ch); [|now subst].
    apply (chain_same K_eqb valid effects genesis U GOOD); [eapply uchain_tail; eauto|apply B|]. rewrite <- T1, <- E.
    destruct l2 as [|q l2]; [|destruct X as (((Q & _) & _) & _); cbn; auto].
    exfalso. destruct X as ((-> & _) & _). rewrite (proj2 (proj2 (proj2 (proj2 (proj2 GOOD))))), T1 in E. destruct ch as [|c ch]; [congruence|]. cbn in E.
    pose proof (B_chain _ _ _ _ _ _ _ B) as (_ & F). inversion F; subst. eapply (Unz genesis U GOOD); eauto.
  Qed.
  (** blocks that were on some chain before are applied again *)
  Lemma apply_line_ok ch0 line : uchain ch0 -> forall n ch, inv n ch -> ch <> [] -> incl line ch0 -> blocks_in n line -> exists n', apply_line line n = Returns n'.
  Proof.
    intros X. induction line as [|b l IH]; intros n ch I NE IC IF.
    - cbn. eauto.
    - rewrite apply_line_step. assert (Ub : U b) by (eapply inv_forks_U; eauto; apply IF; cbn; auto).
      destruct (N.eqb_spec (b_prev b) (n_state n)) as [E|E]; cbn [negb]; [|eapply IH; eauto; [intros y J; apply IC|intros y J; apply IF]; cbn; auto].
      pose proof (line_step_inv _ _ _ _ _ GOOD b n ch I Ub NE E) as S. destruct (line_step _ _ _ b n) as [n1|n1|]; [|exfalso|destruct S].
      + destruct S as (I1 & R1 & S1). apply (IH n1 (b :: ch)); auto; [discriminate|intros y J; apply IC; cbn; auto|].
        intros y J. unfold ReorgInvProofs.same_forks in S1. rewrite S1. apply IF. cbn; auto.
      + destruct S as (_ & _ & _ & [S|S]); [revert S; apply in_forks_found, IF; cbn; auto|]. apply S. eapply in_chain_next; eauto. apply IC. cbn; auto.
  Qed.
  Lemma apply_root_inv pok l : forall n ch, inv n ch -> ch <> [] -> Forall U l ->
    match apply_root pok l n with
    | Spent => False
    | Returns n' => inv n' (rev l ++ ch) /\ n_root n' = n_root n /\ n_forks n' = n_forks n
    | Throws n' => exists ch', ch' <> [] /\ inv n' ch' /\ n_root n' = n_root n /\ n_forks n' = n_forks n
    end.
  Proof.
    induction l as [|b l IH]; intros n ch I NE F.
    - cbn. auto.
    - cbn [ReorgModel.apply_root rev]. inversion F as [|? ? Ub F']; subst. destruct (pok b); [|eauto 8]. destruct (validate n b) as [c|] eqn:VV; [|eauto 8].
      destruct (validate_chain _ _ _ _ _ GOOD _ _ _ _ I Ub VV) as (_ & X & Z). destruct (apply_inv _ _ _ _ _ GOOD b n ch I X) as (n1 & A & I1 & R & S & _).
      replace (Some c) with (ctx_for ch b) by (unfold ReorgProofs.ctx_for; destruct ch; [congruence|auto]). rewrite A.
      specialize (IH n1 (b :: ch) I1 ltac:(discriminate) F'). rewrite <- app_assoc. cbn [app]. destruct (apply_root pok l n1) as [n2|n2|]; auto.
      + destruct IH as (J & R2 & S2). split; auto. split; congruence.
      + destruct IH as (ch' & J1 & J2 & R2 & S2). exists ch'. split; auto. split; auto. split; congruence.
  Qed.

  (** ** reset *)
  Lemma add_fork_inv b n ch : inv n ch -> U b -> inv (add_fork b n) ch /\ n_root (add_fork b n) = n_root n /\ incl (map f_block (n_forks n)) (map f_block (n_forks (add_fork b n))) /\
    (forall r, n_root n = Some r -> b_height r < b_height b -> In b (map f_block (n_forks (add_fork b n)))).
  Proof.
    intros I Ub. unfold ReorgModel.add_fork. pose proof I as (B & T). destruct (n_root n) as [r|] eqn:R; [|repeat split; try apply I; auto; [apply incl_refl|discriminate]].
    destruct (N.leb_spec (b_height b) (b_height r)) as [L|L].
    - split; auto. split; auto. split; [apply incl_refl|]. intros r' E. inversion E; subst. lia.
    - destruct (find_fork n (b_hash b)) as [f|] eqn:F.
      + split; auto. split; auto. split; [apply incl_refl|]. intros r' E _. destruct (fork_found _ _ _ F) as (J & HF). apply in_map_iff. exists f. split; auto.
        apply (Uinj genesis U GOOD); auto. pose proof (proj1 (Forall_forall _ _) (B_forks _ _ _ _ _ _ _ B) _ J) as (X & _). exact X.
      + split; [|split; [exact R|split]].
        * apply inv_forks; auto. constructor; [|apply B]. split; cbn; auto. discriminate.
        * intros x J. cbn. auto.
        * intros. cbn. auto.
  Qed.
  Lemma add_forks_inv lo hi l : forall n ch, inv n ch -> Forall U l ->
    let n' := fold_left (fun (n : node) (b : block) => if (lo <=? b_height b) && (b_height b <=? hi) then add_fork b n else n) l n in
    inv n' ch /\ n_root n' = n_root n /\ incl (map f_block (n_forks n)) (map f_block (n_forks n')) /\
    (forall r b, n_root n = Some r -> b_height r = lo -> In b l -> lo < b_height b -> b_height b <= hi -> In b (map f_block (n_forks n'))).
  Proof.
    induction l as [|x l IH]; intros n ch I F; cbn [fold_left].
    - cbn. split; auto. split; auto. split; [apply incl_refl|]. intros ? ? _ _ [].
    - inversion F as [|? ? Ux F']; subst. match goal with |- context [fold_left _ l ?m] => set (n1 := m) end.
      assert (P : inv n1 ch /\ n_root n1 = n_root n /\ incl (map f_block (n_forks n)) (map f_block (n_forks n1)) /\
                  (forall r, n_root n = Some r -> b_height r = lo -> lo < b_height x -> b_height x <= hi -> In x (map f_block (n_forks n1)))).
      { unfold n1. destruct (N.leb_spec lo (b_height x)) as [L1|L1]; destruct (N.leb_spec (b_height x) hi) as [L2|L2]; cbn [andb].
        - destruct (add_fork_inv x n ch I Ux) as (P1 & P2 & P3 & P4). split; auto. split; auto. split; auto. intros r E1 E2 L _. apply (P4 r E1). lia.
        - split; auto. split; auto. split; [apply incl_refl|]. intros; lia.
        - split; auto. split; auto. split; [apply incl_refl|]. intros; lia.
        - split; auto. split; auto. split; [apply incl_refl|]. intros; lia. }
      destruct P as (P1 & P2 & P3 & P4). destruct (IH n1 ch P1 F') as (Q1 & Q2 & Q3 & Q4). split; auto. split; [congruence|]. split; [eapply incl_tran; eauto|].
      intros r b E1 E2 [<-|J] L1 L2; [apply Q3; eauto|]. apply (Q4 r); auto. congruence.
  Qed.
  (** the root is on the chain and the blocks above it are in the fork tree *)
  Definition healthy (n : node) (ch : list block) : Prop :=
    exists r, n_root n = Some r /\ In r ch /\ forall b, In b ch -> b_height r < b_height b -> In b (map f_block (n_forks n)).
  Definition or_genesis (ch : list block) : list block := match ch with [] => [genesis] | _ => ch end.
  Lemma genesis_chain : uchain [genesis].
  Proof. split; cbn; auto. constructor; [apply GOOD|constructor]. Qed.
  Lemma reset_inv n ch : inv n ch -> exists n', reset n = Returns n' /\ inv n' (or_genesis ch) /\ healthy n' (or_genesis ch) /\
    forall r, n_root n' = Some r -> ch <> [] -> b_height r = (N.of_nat (length ch) - 1) - N.min commit_delay (N.of_nat (length ch) - 1).
  Proof.
    intros (B & T1 & T2). unfold ReorgModel.reset. cbn [ReorgModel.n_db]. rewrite (B_db _ _ _ _ _ _ _ B).
    rewrite (scratch_last _ _ _ _ _ GOOD _ (B_chain _ _ _ _ _ _ _ B)). destruct ch as [|b ch].
    - set (n1 := mk_node _ _ _ _ _ _ _). assert (I1 : inv n1 []).
      { split; [|split; auto]. constructor; cbn; auto; try apply B; try (intros ? []). constructor; [|apply B]. exists []. cbn. split; [apply B|]. split; auto. split; auto. intros ? []. }
      destruct (apply_inv _ _ _ _ _ GOOD genesis n1 [] I1 genesis_chain) as (n' & A & I' & _). cbn [ReorgProofs.ctx_for] in A. rewrite A. eexists. split; [reflexivity|].
      split; [apply inv_root; exact I'|]. split; [|congruence]. exists genesis. split; auto. split; [cbn; auto|]. intros x [<-|[]] L. lia.
    - pose proof (B_chain _ _ _ _ _ _ _ B) as X. set (n1 := mk_node _ _ _ _ (b_hash b) _ _). assert (I1 : inv n1 (b :: ch)).
      { split; [|split; auto]. constructor; cbn [n1 ReorgModel.n_db ReorgModel.n_stored ReorgModel.n_forks ReorgModel.n_trace]; auto; try apply B. }
      pose proof (proj1 I1) as B1.
      assert (CT : check_top K V C (S (N.to_nat (b_height b))) n1 (b_height b) = (b_height b, n1)).
      { cbn [check_top]. rewrite (B_db _ _ _ _ _ _ _ B1). rewrite (scratch_hash _ _ _ _ _ GOOD) by auto. rewrite (in_at_height _ _ _ _ _ GOOD b (b :: ch) X) by (cbn; auto).
        cbn [option_map]. rewrite (stored_in _ _ _ _ _ GOOD n1 (b :: ch) b B1) by (apply (B_in _ _ _ _ _ _ _ B1); cbn; auto). now rewrite N.eqb_refl. }
      rewrite CT. pose proof (head_height _ _ _ _ _ GOOD _ _ X) as HB.
      destruct (all_heights _ _ _ _ _ GOOD (b_height b - N.min commit_delay (b_height b)) (b :: ch) X) as (r & R); [cbn [length]; lia|].
      rewrite (B_db _ _ _ _ _ _ _ B1), (scratch_hash _ _ _ _ _ GOOD) by auto. rewrite R. cbn [option_map]. destruct (at_height_in _ _ _ R) as (Ir & Hr).
      rewrite (stored_in _ _ _ _ _ GOOD n1 (b :: ch) r B1) by (apply (B_in _ _ _ _ _ _ _ B1), Ir). eexists. split; [reflexivity|].
      destruct (add_forks_inv (b_height r) (b_height b) (n_stored n1) (set_root (Some r) n1) (b :: ch)) as (Q1 & Q2 & Q3 & Q4); [apply inv_root; auto|apply B1|].
      cbn [or_genesis]. split; auto. split.
      + exists r. split; [rewrite Q2; reflexivity|]. split; auto. intros x J L. apply (Q4 r x); auto; [apply (B_in _ _ _ _ _ _ _ B1), J|].
        pose proof (height_in _ _ _ _ _ GOOD _ _ X J) as HX. cbn [length] in HX. lia.
      + intros r' E _. rewrite Q2 in E. cbn in E. inversion E; subst r'. cbn [length]. rewrite Hr, HB. f_equal; [lia|f_equal; lia].
  Qed.
  Lemma old_blocks_U n ch : inv n ch -> forall fuel h acc, Forall U acc -> Forall U (old_blocks K V C n fuel h acc).
  Proof.
    intros (B & _). induction fuel as [|k IH]; intros h acc F; cbn [old_blocks]; auto. destruct (get_block n h) as [b|] eqn:G; auto.
    destruct (get_found _ _ _ _ _ _ _ _ _ B G) as (Ub & _). destruct (_ =? _); [constructor; auto|]. apply IH. constructor; auto.
  Qed.
  Lemma mark_inv line : forall n ch, inv n ch -> inv (mark_invalid K V C line n) ch.
  Proof.
    intros n ch I. unfold mark_invalid. apply inv_forks; auto. pose proof (proj1 I) as B. pose proof (B_forks _ _ _ _ _ _ _ B) as F. revert F. generalize (n_forks n) as fs. clear I B.
    induction line as [|b l IH]; intros fs F; cbn [fold_left]; auto. apply IH. apply modify_ok; auto.
  Qed.
  Lemma restore_ok line s n : ok n -> ok (restore line s n).
  Proof.
    intros (ch & NE & I). unfold ReorgModel.restore. set (l := old_blocks _ _ _ _ _ _ _). assert (F : Forall U l) by (eapply old_blocks_U; eauto).
    pose proof (apply_root_inv (fun _ => true) l n ch I NE F) as A. destruct (apply_root _ l n) as [n1|n1|]; [|destruct A as (ch' & A1 & A2 & _); exists ch'; auto|destruct A].
    destruct A as (A & _). destruct (reset_inv n1 _ A) as (n2 & E & I2 & _). rewrite E. exists (or_genesis (rev l ++ ch)). split; [|apply mark_inv; auto].
    intros Z. destruct (rev l); cbn in Z; [destruct ch; discriminate|discriminate].
  Qed.

  (** ** switching *)
  Lemma walk_line_in n r : forall fuel f acc line, In f (n_forks n) -> blocks_in n acc -> walk_line n r fuel (Some f) acc = Some line -> blocks_in n line.
  Proof.
    induction fuel as [|k IH]; intros f acc line I A E; cbn [ReorgModel.walk_line] in E; [discriminate|].
    assert (A' : blocks_in n (f_block f :: acc)) by (intros x [<-|J]; [apply in_map; auto|auto]).
    destruct (_ && _); [inversion E; subst; auto|]. destruct (find_fork n (b_prev (f_block f))) as [g|] eqn:G.
    - eapply (IH g); eauto. apply (fork_found _ _ _ G).
    - destruct k; discriminate.
  Qed.
  Lemma walk_root_U n ch : inv n ch -> forall fuel b acc p l, U b -> Forall U acc -> walk_root K V C n fuel (Some b) acc = Some (p, l) -> Forall U l /\ hash_at K V (n_db n) (b_height p) = Some (b_hash p) /\ U p.
  Proof.
    intros (B & _). induction fuel as [|k IH]; intros b acc p l Ub F E; cbn [walk_root] in E; [discriminate|].
    destruct (hash_at K V (n_db n) (b_height b)) as [x|] eqn:HA.
    - destruct (N.eqb_spec x (b_hash b)).
      + inversion E; subst. auto.
      + destruct (get_block n (b_prev b)) as [q|] eqn:G; [|destruct k; discriminate]. eapply (IH q (b :: acc)); eauto. apply (get_found _ _ _ _ _ _ _ _ _ B G).
    - destruct (get_block n (b_prev b)) as [q|] eqn:G; [|destruct k; discriminate]. eapply (IH q (b :: acc)); eauto. apply (get_found _ _ _ _ _ _ _ _ _ B G).
  Qed.
  Definition go_back (fuel : nat) (pok : block -> bool) (prev_state : N) (o : outcome) : outcome :=
    match o with
    | Returns n => Returns n
    | Throws n =>
      if prev_state =? n_state n then Throws n
      else match find_fork n prev_state with
           | Some f => match switch fuel pok f n with Returns n => Throws n | x => x end
           | None => match n_root n with
                     | Some r => if prev_state =? b_hash r then Throws (revert (b_height r + 1) n) else Throws n
                     | None => Throws n
                     end
           end
    | Spent => Spent
    end.
  Lemma switch_eq k pok peak n : switch (S k) pok peak n =
    match fork_line n (Some peak), n_root n with
    | Some ((first :: _) as line), Some r =>
      if b_prev first =? b_hash r then
        match fork_line n None with
        | None => Throws n
        | Some main =>
          let p := last_common (map b_hash main) line r in
          go_back k pok (n_state n) (apply_line line (if b_hash p =? n_state n then n else revert (b_height p + 1) n))
        end
      else
        match get_block n (b_prev first) with
        | None => Throws n
        | Some r' =>
          match walk_root K V C n (S (length (n_forks n) + length (n_stored n))) (Some r') [] with
          | None => Throws (restore line (n_state n) n)
          | Some (p, l) =>
            match apply_root pok l (revert (b_height p + 1) n) with
            | Returns n1 => go_back k pok (n_state n) (apply_line line (set_root (Some r') n1))
            | Throws n1 => Throws (restore line (n_state n) n1)
            | Spent => Spent
            end
          end
        end
    | Some [], _ => Returns n
    | _, _ => Throws n
    end.
  Proof. reflexivity. Qed.
  Lemma fork_line_in n f line : In f (n_forks n) -> fork_line n (Some f) = Some line -> blocks_in n line.
  Proof. intros I E. unfold ReorgModel.fork_line in E. destruct (n_root n); [|discriminate]. eapply walk_line_in; eauto. intros ? []. Qed.
  Lemma in_U n ch line : inv n ch -> blocks_in n line -> Forall U line.
  Proof. intros I A. apply Forall_forall. intros b J. eapply inv_forks_U; eauto. Qed.

  Definition out_ok (o : outcome) : Prop := match o with Returns n | Throws n => ok n | Spent => True end.
  Lemma go_back_ok k pok s o : (forall f n, ok n -> In f (n_forks n) -> out_ok (switch k pok f n)) -> out_ok o -> out_ok (go_back k pok s o).
  Proof.
    intros IH O. destruct o as [n|n|]; auto. cbn in O |- *. destruct (s =? n_state n); auto. destruct (find_fork n s) as [f|] eqn:F.
    - specialize (IH f n O (proj1 (fork_found _ _ _ F))). destruct (switch k pok f n); auto.
    - destruct (n_root n) as [r|]; auto. destruct (s =? b_hash r); auto. destruct O as (ch & NE & I). destruct (revert_ok (b_height r) n ch NE I) as (I' & NE' & _). exists (cut (b_height r + 1) ch). auto.
  Qed.
  Lemma switch_ok pok : forall fuel f n, ok n -> In f (n_forks n) -> out_ok (switch fuel pok f n).
  Proof.
    induction fuel as [|k IH]; intros f n O IF; [exact I|]. rewrite switch_eq. destruct (fork_line n (Some f)) as [line|] eqn:FL; [|exact O].
    pose proof (fork_line_in n f line IF FL) as LI. destruct line as [|first rest] eqn:EL; [exact O|]. rewrite <- EL in *. destruct (n_root n) as [r|]; [|exact O].
    destruct O as (ch & NE & J). pose proof (in_U n ch line J LI) as LU. destruct (b_prev first =? b_hash r).
    - destruct (fork_line n None) as [main|]; [|exists ch; auto]. cbn zeta. set (p := last_common _ _ _). match goal with |- context [apply_line _ ?m] => set (n1 := m) end.
      assert (P : exists ch1, ch1 <> [] /\ inv n1 ch1).
      { unfold n1. destruct (_ =? _); [exists ch; auto|]. destruct (revert_ok (b_height p) n ch NE J) as (I' & NE' & _). eauto. }
      destruct P as (ch1 & NE1 & J1). apply go_back_ok; auto. pose proof (apply_line_inv line n1 ch1 J1 NE1 LU) as A. destruct (apply_line line n1); [| |exact I]; destruct A as (c & A1 & A2 & _); exists c; auto.
    - destruct (get_block n (b_prev first)) as [r'|] eqn:G; [|exists ch; auto]. destruct (get_found _ _ _ _ _ _ _ _ _ (proj1 J) G) as (Ur & _).
      destruct (walk_root K V C n _ (Some r') []) as [(p, l)|] eqn:W; [|apply restore_ok; exists ch; auto].
      destruct (walk_root_U n ch J _ _ _ _ _ Ur (Forall_nil _) W) as (Ul & _). destruct (revert_ok (b_height p) n ch NE J) as (I' & NE' & _).
      pose proof (apply_root_inv pok l _ _ I' NE' Ul) as A. destruct (apply_root pok l _) as [n1|n1|]; [| |exact I].
      + destruct A as (A & _). apply go_back_ok; auto. assert (NE1 : rev l ++ cut (b_height p + 1) ch <> []) by (intros Z; apply app_eq_nil in Z; tauto).
        pose proof (apply_line_inv line (set_root (Some r') n1) _ (inv_root _ _ _ _ _ (Some r') _ _ A) NE1 LU) as Q. destruct (apply_line line _); [| |exact I]; destruct Q as (c & A1 & A2 & _); exists c; auto.
      + apply restore_ok. destruct A as (c & A1 & A2 & _). exists c. auto.
  Qed.

  (** a call that goes back to a chain the node was on does not call itself *)
  Lemma walk_line_chain n ch0 r : (exists ch, inv n ch) -> uchain ch0 -> forall fuel f acc line, In (f_block f) ch0 -> incl acc ch0 -> walk_line n r fuel (Some f) acc = Some line -> incl line ch0.
  Proof.
    intros (ch & J) X. induction fuel as [|k IH]; intros f acc line I A E; cbn [ReorgModel.walk_line] in E; [discriminate|].
    assert (A' : incl (f_block f :: acc) ch0) by (intros x [<-|Q]; auto).
    destruct (_ && _); [inversion E; subst; auto|]. destruct (find_fork n (b_prev (f_block f))) as [g|] eqn:G; [|destruct k; discriminate].
    eapply (IH g); eauto. destruct (fork_found _ _ _ G) as (Ig & Hg). assert (Ug : U (f_block g)) by (eapply inv_forks_U; eauto; apply in_map; auto).
    apply in_split in I. destruct I as (l1 & l2 & Z). pose proof X as Y. rewrite Z in Y. apply uchain_suffix in Y. destruct l2 as [|q l2].
    - destruct Y as ((Y & _) & _). rewrite Y, (proj2 (proj2 (proj2 (proj2 (proj2 GOOD))))) in Hg. destruct (Unz genesis U GOOD _ Ug Hg).
    - destruct Y as (((Y & _) & _) & FU). assert (f_block g = q).
      { apply (Uinj genesis U GOOD); auto; [|congruence]. inversion FU as [|? ? _ FU']; subst. now inversion FU'. }
      rewrite H, Z. apply in_app_iff. cbn. auto.
  Qed.
  Lemma fork_line_chain n ch0 f line : (exists ch, inv n ch) -> uchain ch0 -> In (f_block f) ch0 -> fork_line n (Some f) = Some line -> incl line ch0.
  Proof. intros J X I E. unfold ReorgModel.fork_line in E. destruct (n_root n); [|discriminate]. eapply walk_line_chain; eauto. intros ? []. Qed.
  Lemma switch_back k pok f n ch0 : ok n -> In f (n_forks n) -> uchain ch0 -> In (f_block f) ch0 -> switch (S k) pok f n <> Spent.
  Proof.
    intros (ch & NE & J) IF X IC. rewrite switch_eq. destruct (fork_line n (Some f)) as [line|] eqn:FL; [|discriminate].
    pose proof (fork_line_in n f line IF FL) as LI. pose proof (fork_line_chain n ch0 f line (ex_intro _ ch J) X IC FL) as LC.
    destruct line as [|first rest] eqn:EL; [discriminate|]. rewrite <- EL in *. destruct (n_root n) as [r|]; [|discriminate].
    pose proof (in_U n ch line J LI) as LU. destruct (b_prev first =? b_hash r).
    - destruct (fork_line n None) as [main|]; [|discriminate]. cbn zeta. set (p := last_common _ _ _). match goal with |- context [apply_line _ ?m] => set (n1 := m) end.
      assert (P : exists ch1, ch1 <> [] /\ inv n1 ch1 /\ n_forks n1 = n_forks n).
      { unfold n1. destruct (_ =? _); [exists ch; auto|]. destruct (revert_ok (b_height p) n ch NE J) as (I' & NE' & _). eauto. }
      destruct P as (ch1 & NE1 & J1 & F1). destruct (apply_line_ok ch0 line X n1 ch1 J1 NE1 LC) as (n2 & ->); [|discriminate]. intros b Q. rewrite F1. auto.
    - destruct (get_block n (b_prev first)) as [r'|] eqn:G; [|discriminate]. destruct (get_found _ _ _ _ _ _ _ _ _ (proj1 J) G) as (Ur & _).
      destruct (walk_root K V C n _ (Some r') []) as [(p, l)|] eqn:W; [|discriminate].
      destruct (walk_root_U n ch J _ _ _ _ _ Ur (Forall_nil _) W) as (Ul & _). destruct (revert_ok (b_height p) n ch NE J) as (I' & NE' & _ & F').
      pose proof (apply_root_inv pok l _ _ I' NE' Ul) as A. destruct (apply_root pok l _) as [n1|n1|]; [|discriminate|destruct A].
      destruct A as (A & _ & F1). assert (NE1 : rev l ++ cut (b_height p + 1) ch <> []) by (intros Z; apply app_eq_nil in Z; tauto).
      destruct (apply_line_ok ch0 line X (set_root (Some r') n1) _ (inv_root _ _ _ _ _ (Some r') _ _ A) NE1 LC) as (n2 & ->); [|discriminate].
      intros b Q. cbn [ReorgModel.n_forks ReorgModel.set_root]. rewrite F1, F'. auto.
  Qed.
  Lemma go_back_some k pok n0 ch o : ch <> [] -> inv n0 ch -> out_ok o -> o <> Spent -> go_back (S k) pok (n_state n0) o <> Spent.
  Proof.
    intros NE (B & T1 & _) O NS. destruct o as [n|n|]; [discriminate| |congruence]. unfold go_back. destruct (_ =? _); [discriminate|].
    destruct (find_fork n (n_state n0)) as [f|] eqn:F.
    - destruct (fork_found _ _ _ F) as (IF & HF). pose proof (switch_back k pok f n ch O IF (B_chain _ _ _ _ _ _ _ B)) as SB.
      destruct (switch (S k) pok f n) as [m|m|] eqn:E; [discriminate|discriminate|]. exfalso. apply SB; [|reflexivity]. destruct ch as [|b ch]; [congruence|]. left.
      destruct O as (c & _ & J). apply (Uinj genesis U GOOD).
      + pose proof (B_chain _ _ _ _ _ _ _ B) as (_ & FU). now inversion FU.
      + eapply inv_forks_U; eauto. apply in_map; auto.
      + rewrite HF, T1. reflexivity.
    - destruct (n_root n) as [r|]; [|discriminate]. destruct (_ =? _); discriminate.
  Qed.
  Lemma switch_some pok k f n : ok n -> In f (n_forks n) -> switch (S (S k)) pok f n <> Spent.
  Proof.
    intros O IF. rewrite switch_eq. destruct (fork_line n (Some f)) as [line|] eqn:FL; [|discriminate].
    pose proof (fork_line_in n f line IF FL) as LI. destruct line as [|first rest] eqn:EL; [discriminate|]. rewrite <- EL in *. destruct (n_root n) as [r|]; [|discriminate].
    destruct O as (ch & NE & J). pose proof (in_U n ch line J LI) as LU. destruct (b_prev first =? b_hash r).
    - destruct (fork_line n None) as [main|]; [|discriminate]. cbn zeta. set (p := last_common _ _ _). match goal with |- context [apply_line _ ?m] => set (n1 := m) end.
      assert (P : exists ch1, ch1 <> [] /\ inv n1 ch1).
      { unfold n1. destruct (_ =? _); [exists ch; auto|]. destruct (revert_ok (b_height p) n ch NE J) as (I' & NE' & _). eauto. }
      destruct P as (ch1 & NE1 & J1). pose proof (apply_line_inv line n1 ch1 J1 NE1 LU) as A. apply (go_back_some k pok n ch); auto.
      + destruct (apply_line line n1); [| |exact I]; destruct A as (c & A1 & A2 & _); exists c; auto.
      + intros Z. rewrite Z in A. exact A.
    - destruct (get_block n (b_prev first)) as [r'|] eqn:G; [|discriminate]. destruct (get_found _ _ _ _ _ _ _ _ _ (proj1 J) G) as (Ur & _).
      destruct (walk_root K V C n _ (Some r') []) as [(p, l)|] eqn:W; [|discriminate].
      destruct (walk_root_U n ch J _ _ _ _ _ Ur (Forall_nil _) W) as (Ul & _). destruct (revert_ok (b_height p) n ch NE J) as (I' & NE' & _).
      pose proof (apply_root_inv pok l _ _ I' NE' Ul) as A. destruct (apply_root pok l _) as [n1|n1|]; [|discriminate|destruct A].
      destruct A as (A & _). assert (NE1 : rev l ++ cut (b_height p + 1) ch <> []) by (intros Z; apply app_eq_nil in Z; tauto).
      pose proof (apply_line_inv line (set_root (Some r') n1) _ (inv_root _ _ _ _ _ (Some r') _ _ A) NE1 LU) as Q. apply (go_back_some k pok n ch); auto.
      + destruct (apply_line line _); [| |exact I]; destruct Q as (c & A1 & A2 & _); exists c; auto.
      + intros Z. rewrite Z in Q. exact Q.
  Qed.

  (** ** commit, start, and all operations *)
  Lemma commit_inv keep b n ch : inv n ch -> inv (commit K V C keep b n) ch.
  Proof.
    intros J. unfold commit. destruct (n_root n) as [r|]; auto. destruct (_ =? _); auto. match goal with |- context [fold_left _ ?g n] => set (gone := g) end.
    assert (GU : Forall U (map f_block gone)).
    { apply Forall_forall. intros x Q. apply in_map_iff in Q. destruct Q as (f & <- & Q). apply filter_In in Q. eapply inv_forks_U; eauto. apply in_map, Q. }
    assert (J1 : inv (fold_left (fun (n : node) (f : fork) => if keep (f_block f) then write_block (f_block f) n else n) gone n) ch).
    { clearbody gone. clear -J GU GOOD. revert n J. induction gone as [|g l IH]; intros n J; cbn [fold_left]; auto. inversion GU; subst. apply IH; auto. destruct (keep _); auto. apply write_inv; auto. }
    set (n1 := fold_left _ _ _) in *. destruct J1 as ([] & T1 & T2). split; [constructor|split]; auto. cbn.
    apply Forall_forall. intros f Q. apply filter_In in Q. exact (proj1 (Forall_forall _ _) B_forks _ (proj1 Q)).
  Qed.
  Lemma start_ok d v stored ch : uchain ch -> d = scratch ch -> incl ch stored -> Forall U stored ->
    exists n', start d v stored = Some n' /\ inv n' (or_genesis (cut v ch)) /\ healthy n' (or_genesis (cut v ch)).
  Proof.
    intros X -> IC US. unfold ReorgModel.start. cbn zeta. pose proof (scratch_lows _ _ _ _ _ GOOD _ X) as ((L & _) & _). rewrite L.
    assert (CV : cut (N.min v (N.of_nat (length ch))) ch = cut v ch).
    { destruct (N.le_gt_cases v (N.of_nat (length ch))); [now rewrite N.min_l|]. rewrite N.min_r by lia. now rewrite !cut_all by lia. }
    set (v' := N.min v _) in *. rewrite (scratch_revert _ _ _ _ _ GOOD) by auto. rewrite CV. pose proof (uchain_cut _ _ _ _ _ v _ X) as X'.
    assert (IC' : incl (cut v ch) stored) by (intros x Q; apply IC, (cut_incl v ch), Q).
    set (n1 := mk_node _ _ _ _ _ _ _). assert (B1 : base n1 (cut v ch)).
    { constructor; cbn; auto. constructor; [|constructor]. exists (cut v ch). auto. }
    destruct (revert_inv _ _ _ _ _ GOOD v' n1 (cut v ch) B1 (or_introl eq_refl)) as (I1 & _).
    assert (CC : cut v' (cut v ch) = cut v ch). { apply cut_all. rewrite <- CV. rewrite cut_length; unfold v'; lia. }
    rewrite CC in I1. destruct (reset_inv _ _ I1) as (n' & E & I' & H & _). rewrite E. eauto.
  Qed.
  Lemma add_block_inv b n ch : inv n ch -> U b -> inv (add_block K V C b n) ch.
  Proof.
    intros J Ub. unfold add_block. destruct (n_root n) as [r|]; auto. destruct (_ <=? _); [apply write_inv; auto|apply add_fork_inv; auto].
  Qed.
  Lemma step_ok n o : ok n -> match o with Add b => U b | _ => True end -> exists n', step n o = Some n' /\ ok n'.
  Proof.
    intros (ch & NE & J) A. destruct o as [b|h pok|keep|i v]; cbn [ReorgModel.step]; [pose proof (inv_fresh _ _ _ _ _ _ _ J) as J1 ..|].
    - eexists. split; [reflexivity|]. exists ch. split; auto. apply add_block_inv; auto.
    - destruct (find_fork (fresh_trace K V C n) h) as [f|] eqn:F; [|eexists; split; [reflexivity|exists ch; auto]].
      destruct (fork_found _ _ _ F) as (IF & _). assert (O1 : ok (fresh_trace K V C n)) by (exists ch; auto).
      pose proof (switch_ok pok 2 f _ O1 IF) as S. pose proof (switch_some pok 0 f _ O1 IF) as T. destruct (switch 2 pok f _) as [m|m|]; [eauto| |congruence].
      eexists. split; [reflexivity|]. destruct S as (c & S1 & S2). exists c. split; auto. apply inv_forks; auto. apply modify_ok; [|apply S2]. intros g G _. exact G.
    - destruct (fork_line _ None) as [[|b l]|]; eexists; (split; [reflexivity|]); exists ch; split; auto. apply commit_inv; auto.
    - assert (S : forall d st, disk_ok (d, st) -> exists n', start d v st = Some n' /\ ok n').
      { intros d st (c & X & E & IC & US). cbn in E, IC, US. destruct (start_ok d v st c X E IC US) as (n' & S1 & S2 & _). exists n'. split; auto.
        exists (or_genesis (cut v c)). split; auto. destruct (cut v c); discriminate. }
      destruct (nth_error (n_trace n) i) as [(d, st)|] eqn:NT.
      + apply S. apply nth_error_In in NT. exact (proj1 (Forall_forall _ _) (B_trace _ _ _ _ _ _ _ (proj1 J)) _ NT).
      + apply S. eapply base_disk. apply J.
  Qed.
  Lemma run_ok l : forall n, ok n -> arrive U l -> exists n', run n l = Some n' /\ ok n'.
  Proof.
    induction l as [|o l IH]; intros n O A; cbn [ReorgModel.run]; eauto. inversion A; subst. destruct (step_ok n o O) as (n1 & E & O1); auto. rewrite E. apply IH; auto.
  Qed.
  Lemma node0_ok : exists n', node0 K V C K_eqb effects genesis commit_delay = Some n' /\ ok n' /\ healthy n' [genesis].
  Proof.
    assert (X : uchain []) by (split; cbn; auto). destruct (start_ok (db0 K V) 0 [] [] X eq_refl (fun _ Q => Q) (Forall_nil _)) as (n' & E & I' & H).
    exists n'. split; auto. cbn in *. split; auto. exists [genesis]. split; auto. discriminate.
  Qed.
End REORG2.
