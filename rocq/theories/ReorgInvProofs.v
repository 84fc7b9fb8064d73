(** Proofs for ReorgModel.v: the state of the node is that of its chain *)
Require Import List Arith NArith Bool Lia.
Import ListNotations.
From Verif Require Import DbSpec ReorgModel ReorgSpec ReorgProofs.
Open Scope N_scope.

Section REORG.
  Context {K V C : Type} (K_eqb : K -> K -> bool).
  Variable valid : view K V -> block -> option C.
  Variable effects : view K V -> block -> option C -> list (K * V).
  Variable genesis : block.
  Variable commit_delay : N.
  Variable U : block -> Prop.
  Hypothesis GOOD : good_blocks U genesis.

  Notation scratch := (scratch K_eqb valid effects).
  Notation chain := (chain K_eqb valid effects genesis).
  Notation uchain := (uchain K_eqb valid effects genesis U).
  Notation ctx_for := (ctx_for K_eqb valid effects).
  Notation the_view := (the_view K V K_eqb).
  Notation db := (db K V).
  Notation node := (node K V C).
  Notation fork := (fork C).
  Notation find_fork := (find_fork K V C).
  Notation find_stored := (find_stored K V C).
  Notation get_block := (get_block K V C).
  Notation n_root := (n_root K V C).
  Notation n_forks := (n_forks K V C).
  Notation n_db := (n_db K V C).
  Notation n_stored := (n_stored K V C).
  Notation n_state := (n_state K V C).
  Notation n_rank := (n_rank K V C).
  Notation n_trace := (n_trace K V C).
  Notation f_block := (f_block C).
  Notation f_validated := (f_validated C).
  Notation f_ctx := (f_ctx C).
  Notation apply := (apply K V C K_eqb effects).
  Notation revert := (revert K V C).
  Notation write_block := (write_block K V C).
  Notation validate := (validate K V C K_eqb valid).
  Notation set_forks := (set_forks K V C).
  Notation set_root := (set_root K V C).
  Notation mk_node := (mk_node K V C).

  Definition fork_ok (f : fork) : Prop :=
    U (f_block f) /\ (f_validated f = true -> exists ch, ch <> [] /\ uchain (f_block f :: ch) /\ f_ctx f = valid (the_view (scratch ch)) (f_block f)).
  Definition disk_ok (d : db * list block) : Prop := exists ch, uchain ch /\ fst d = scratch ch /\ incl ch (snd d) /\ Forall U (snd d).
  (** all but the state and the ranking *)
  Record base (n : node) (ch : list block) : Prop := {
    B_chain : uchain ch;
    B_db : n_db n = scratch ch;
    B_in : incl ch (n_stored n);
    B_stored : Forall U (n_stored n);
    B_forks : Forall fork_ok (n_forks n);
    B_trace : Forall disk_ok (n_trace n) }.
  Definition on_top (n : node) (ch : list block) : Prop := n_state n = top_hash ch /\ forall k, rank_of k (n_rank n) = blocks_by k ch.
  Definition inv (n : node) (ch : list block) : Prop := base n ch /\ on_top n ch.

  Lemma base_disk n ch : base n ch -> disk_ok (n_db n, n_stored n).
  Proof. intros B. exists ch. split; [apply B|]. split; [apply B|]. split; apply B. Qed.

  (** *** finding blocks *)
  Lemma fork_found n h f : find_fork n h = Some f -> In f (n_forks n) /\ b_hash (f_block f) = h.
  Proof. intros E. apply find_some in E. destruct E as (I & E). apply N.eqb_eq in E. auto. Qed.
  Lemma stored_found n h b : find_stored n h = Some b -> In b (n_stored n) /\ b_hash b = h.
  Proof. intros E. apply find_some in E. destruct E as (I & E). apply N.eqb_eq in E. auto. Qed.
  Lemma get_found n ch h b : base n ch -> get_block n h = Some b -> U b /\ b_hash b = h.
  Proof.
    intros B E. unfold ReorgModel.get_block in E. destruct (find_fork n h) as [f|] eqn:F.
    - inversion E; subst. apply fork_found in F. destruct F as (I & F). split; auto. pose proof (proj1 (Forall_forall _ _) (B_forks _ _ B) _ I) as (X & _). exact X.
    - apply stored_found in E. destruct E as (I & E). split; auto. exact (proj1 (Forall_forall _ _) (B_stored _ _ B) _ I).
  Qed.
  Lemma stored_in n ch b : base n ch -> In b (n_stored n) -> find_stored n (b_hash b) = Some b.
  Proof.
    intros B I. unfold ReorgModel.find_stored. destruct (List.find _ _) as [b'|] eqn:E.
    - apply find_some in E. destruct E as (I' & E). apply N.eqb_eq in E. f_equal. pose proof (proj1 (Forall_forall _ _) (B_stored _ _ B)) as F.
      apply (Uinj genesis U GOOD); auto.
    - exfalso. apply (find_none _ _ E) in I. cbn in I. rewrite N.eqb_refl in I. discriminate.
  Qed.
  Lemma get_in n ch b : base n ch -> In b (n_stored n) -> get_block n (b_hash b) = Some b.
  Proof.
    intros B I. unfold ReorgModel.get_block. destruct (find_fork n (b_hash b)) as [f|] eqn:F; [|eapply stored_in; eauto].
    apply fork_found in F. destruct F as (J & F). f_equal. apply (Uinj genesis U GOOD); auto.
    - pose proof (proj1 (Forall_forall _ _) (B_forks _ _ B) _ J) as (X & _). exact X.
    - exact (proj1 (Forall_forall _ _) (B_stored _ _ B) _ I).
  Qed.
  Lemma get_chain n ch b : base n ch -> In b ch -> get_block n (b_hash b) = Some b.
  Proof. intros B I. eapply get_in; eauto. apply (B_in _ _ B), I. Qed.
  Lemma get_zero n ch : base n ch -> get_block n 0 = None.
  Proof. intros B. destruct (get_block n 0) eqn:E; auto. destruct (get_found _ _ _ _ B E) as (X & Y). destruct (Unz genesis U GOOD _ X Y). Qed.
  Lemma chain_short n ch : base n ch -> (length ch <= length (n_stored n))%nat.
  Proof. intros B. apply NoDup_incl_length; [|apply B]. eapply chain_nodup; [exact GOOD|apply B]. Qed.

  (** *** the parts of the node that do not matter *)
  Lemma inv_ext n n' ch : inv n ch -> n_forks n' = n_forks n -> n_db n' = n_db n -> n_stored n' = n_stored n -> n_state n' = n_state n -> n_rank n' = n_rank n ->
    n_trace n' = n_trace n -> inv n' ch.
  Proof. intros ([] & T1 & T2) E1 E2 E3 E4 E5 E6. split; [constructor|split]; try rewrite E1; try rewrite E2; try rewrite E3; try rewrite E4; try rewrite E5; try rewrite E6; auto. Qed.
  Lemma inv_root r n ch : inv n ch -> inv (set_root r n) ch.
  Proof. intros I. eapply inv_ext; [exact I|..]; reflexivity. Qed.
  Lemma inv_forks fs n ch : inv n ch -> Forall fork_ok fs -> inv (set_forks fs n) ch.
  Proof. intros ([] & T1 & T2) F. split; [constructor|split]; auto. Qed.
  Lemma inv_fresh n ch : inv n ch -> inv (fresh_trace K V C n) ch.
  Proof. intros ([] & T1 & T2). split; [constructor|split]; auto. constructor; [|constructor]. exists ch. cbn. auto. Qed.
  Lemma modify_ok h g fs : (forall f, fork_ok f -> b_hash (f_block f) = h -> fork_ok (g f)) -> Forall fork_ok fs -> Forall fork_ok (modify C h g fs).
  Proof.
    intros G F. unfold modify. apply Forall_forall. intros x I. apply in_map_iff in I. destruct I as (y & <- & I). pose proof (proj1 (Forall_forall _ _) F _ I) as Y.
    destruct (N.eqb_spec (b_hash (f_block y)) h); auto.
  Qed.
  Lemma invalid_ok f : fork_ok f -> fork_ok (set_invalid C f).
  Proof. intros X. exact X. Qed.

  (** *** write_block, apply, revert *)
  Lemma write_base b n ch : base n ch -> U b -> base (write_block b n) ch /\ In b (n_stored (write_block b n)).
  Proof.
    intros B Ub. unfold ReorgModel.write_block. destruct (find_stored n (b_hash b)) as [x|] eqn:E.
    - split; auto. apply stored_found in E. destruct E as (I & E). replace b with x; auto. apply (Uinj genesis U GOOD); auto.
      exact (proj1 (Forall_forall _ _) (B_stored _ _ B) _ I).
    - destruct B as [B1 B2 B3 B4 B5 B6]. split; [|cbn; auto]. constructor; cbn; auto.
      + intros x I. right. auto.
      + constructor; auto. exists ch. cbn. split; auto. split; auto. split; auto. intros x I. right. auto.
  Qed.
  Lemma write_same b n : n_root (write_block b n) = n_root n /\ n_forks (write_block b n) = n_forks n /\ n_db (write_block b n) = n_db n /\ n_state (write_block b n) = n_state n /\
    n_rank (write_block b n) = n_rank n /\ incl (n_stored n) (n_stored (write_block b n)).
  Proof. unfold ReorgModel.write_block. destruct (find_stored n (b_hash b)); cbn; repeat split; auto; intros x I; cbn; auto. Qed.
  Lemma write_inv b n ch : inv n ch -> U b -> inv (write_block b n) ch.
  Proof.
    intros (B & T1 & T2) Ub. split; [apply write_base; auto|]. pose proof (write_same b n) as (_ & _ & _ & E1 & E2 & _). split; rewrite ?E1, ?E2; auto.
  Qed.
  Lemma apply_inv b n ch : inv n ch -> uchain (b :: ch) -> exists n', apply b (ctx_for ch b) n = Some n' /\ inv n' (b :: ch) /\ n_root n' = n_root n /\ n_forks n' = n_forks n /\
    incl (n_stored n) (n_stored n').
  Proof.
    intros (B & T1 & T2) X. assert (Ub : U b) by (destruct X as (_ & F); now inversion F). unfold ReorgModel.apply.
    assert (E : b_prev b = n_state n).
    { rewrite T1. destruct ch as [|p ch]; cbn; [destruct X as ((-> & _) & _); apply GOOD|]. destruct X as (((E & _) & _) & _). exact E. }
    rewrite E, N.eqb_refl. eexists. split; [reflexivity|]. destruct (write_base b n ch B Ub) as (B' & Ib). pose proof (write_same b n) as (E0 & E1 & E2 & E3 & E4 & E5).
    assert (D : apply_db K V C K_eqb effects b (ctx_for ch b) (n_db (write_block b n)) = scratch (b :: ch)).
    { rewrite (B_db _ _ B'). reflexivity. }
    cbn. rewrite E0, E1. split; [|repeat split; auto]. split.
    - constructor; cbn; auto; try apply B'.
      + intros x [<-|I]; auto. apply (B_in _ _ B'), I.
      + apply B.
      + constructor; [|apply B']. exists (b :: ch). cbn [fst snd]. split; auto. split; auto. split; [|apply B'].
        intros x [<-|I]; auto. apply (B_in _ _ B'), I.
    - split; auto. intros k. cbn [ReorgModel.n_rank blocks_by]. rewrite E4. destruct (b_height b =? 0); cbn [negb andb].
      + rewrite T2. lia.
      + rewrite rank_up, T2. lia.
  Qed.
  Lemma walk_down_rank n h : forall ch fuel r, (length ch <= fuel)%nat -> uchain ch -> (forall b, In b ch -> get_block n (b_hash b) = Some b) -> get_block n 0 = None ->
    (forall k, rank_of k r = blocks_by k ch) ->
    forall k, rank_of k (walk_down K V C fuel n (match ch with [] => None | b :: _ => Some b end) h r) = blocks_by k (cut h ch).
  Proof.
    induction ch as [|b ch IH]; intros fuel r L X G Z R k.
    - unfold cut. cbn [length skipn]. destruct fuel; cbn; rewrite R; reflexivity.
    - destruct fuel as [|fuel]; [cbn in L; lia|]. cbn [walk_down]. rewrite (head_height _ _ _ _ _ GOOD _ _ X). destruct (N.leb_spec h (N.of_nat (length ch))) as [Y|Y].
      + rewrite cut_cons by auto. replace (get_block n (b_prev b)) with (match ch with [] => None | b :: _ => Some b end).
        * apply IH; auto; [cbn in L; lia|eapply uchain_tail; eauto|intros x I; apply G; cbn; auto|].
          intros k'. specialize (R k'). cbn [blocks_by] in R. rewrite (head_height _ _ _ _ _ GOOD _ _ X) in R. destruct (N.of_nat (length ch) =? 0); cbn [negb andb] in R; [rewrite R; lia|].
          rewrite rank_down, R. lia.
        * destruct ch as [|p ch]; [destruct X as ((-> & _) & _); rewrite (proj2 (proj2 (proj2 (proj2 (proj2 GOOD))))); auto|].
          destruct X as (((E & _) & _) & _). rewrite E. symmetry. apply G. cbn; auto.
      + rewrite cut_all by (cbn [length]; lia). apply R.
  Qed.
  Lemma revert_inv h n ch : base n ch -> n_root n = None \/ on_top n ch ->
    inv (revert h n) (cut h ch) /\ n_root (revert h n) = n_root n /\ n_forks (revert h n) = n_forks n /\ n_stored (revert h n) = n_stored n.
  Proof.
    intros B O. split; [|auto]. pose proof (B_chain _ _ B) as X. assert (D : revert_db K V h (n_db n) = scratch (cut h ch)) by (rewrite (B_db _ _ B); eapply scratch_revert; eauto).
    pose proof (uchain_cut _ _ _ _ _ h _ X) as X'. unfold ReorgModel.revert. rewrite D. split.
    - constructor; cbn; auto; try apply B.
      + intros x I. apply (B_in _ _ B), (cut_incl h ch), I.
      + constructor; [|apply B]. exists (cut h ch). cbn. split; auto. split; auto. split; [|apply B]. intros x I. apply (B_in _ _ B), (cut_incl h ch), I.
    - split; cbn [ReorgModel.n_state ReorgModel.n_rank].
      + rewrite (scratch_last _ _ _ _ _ GOOD _ X'). destruct (cut h ch); reflexivity.
      + intros k. destruct (_ || _) eqn:Q.
        * eapply scratch_rank; eauto.
        * apply orb_false_iff in Q. destruct Q as (Q & _). rewrite Q. destruct O as [O|(O1 & O2)]; [rewrite O in Q; discriminate|].
          rewrite O1. replace (get_block n (top_hash ch)) with (match ch with [] => None | b :: _ => Some b end).
          -- eapply (walk_down_rank n h ch); eauto.
             ++ pose proof (chain_short _ _ B). lia.
             ++ intros b I. eapply get_chain; eauto.
             ++ eapply get_zero; eauto.
          -- destruct ch as [|b ch]; cbn; symmetry; [eapply get_zero; eauto|]. eapply get_chain; eauto. cbn; auto.
  Qed.

  (** *** validate *)
  Lemma validate_chain n ch b c : inv n ch -> U b -> validate n b = Some c -> ch <> [] /\ uchain (b :: ch) /\ valid (the_view (scratch ch)) b = Some c.
  Proof.
    intros (B & T1 & T2) Ub E. unfold ReorgModel.validate in E. destruct (get_block n (b_prev b)) as [p|] eqn:P; [|discriminate].
    destruct (get_found _ _ _ _ B P) as (Up & Hp). destruct (N.eqb_spec (b_hash p) (n_state n)) as [S1|]; [|discriminate].
    destruct (N.eqb_spec (b_height b) (b_height p + 1)) as [S2|]; [|discriminate]. cbn in E. rewrite (B_db _ _ B) in E.
    rewrite T1 in S1. destruct ch as [|q ch]; [cbn in S1; destruct (Unz genesis U GOOD _ Up S1)|]. cbn in S1.
    assert (p = q). { apply (Uinj genesis U GOOD); auto. pose proof (B_chain _ _ B) as (_ & F). now inversion F. }
    subst q. split; [discriminate|]. split; auto. destruct (B_chain _ _ B) as (X & F). split; [|constructor; auto]. split; auto.
    split; [congruence|]. split; auto. rewrite E. discriminate.
  Qed.
  Lemma validate_again n ch b : inv n ch -> uchain (b :: ch) -> ch <> [] -> exists c, validate n b = Some c /\ valid (the_view (scratch ch)) b = Some c.
  Proof.
    intros (B & T1 & T2) X NE. unfold ReorgModel.validate. destruct ch as [|p ch]; [congruence|]. destruct X as (((E & H & W) & _) & _).
    rewrite E, (get_chain n (p :: ch) p B) by (cbn; auto). rewrite T1. cbn [top_hash]. rewrite N.eqb_refl, H, N.eqb_refl. cbn [andb]. rewrite (B_db _ _ B).
    destruct (valid _ b) as [c|]; [|congruence]. eauto.
  Qed.

  (** *** what a line of blocks does *)
  Notation outcome := (outcome K V C).
  Definition out_node (o : outcome) : option node := match o with Returns n | Throws n => Some n | Spent => None end.
  Notation apply_line := (apply_line K V C K_eqb valid effects).
  Notation apply_root := (apply_root K V C K_eqb valid effects).

  (** the same forks, except for what is known about them *)
  Definition same_forks (n n' : node) : Prop := map f_block (n_forks n') = map f_block (n_forks n).
  Lemma modify_blocks h g fs : (forall f, f_block (g f) = f_block f) -> map f_block (modify C h g fs) = map f_block fs.
  Proof. intros G. unfold modify. rewrite map_map. apply map_ext. intros f. destruct (_ =? _); auto. Qed.

  (** one block of apply_line *)
  Definition line_step (b : block) (n : node) : outcome :=
    match find_fork n (b_hash b) with
    | None => Throws n
    | Some f =>
      if f_validated f then match apply b (f_ctx f) n with Some n => Returns n | None => Throws n end
      else match validate n b with
           | Some c => let n := set_forks (modify C (b_hash b) (fun f => mk_fork C (f_block f) (f_invalid C f) true (Some c)) (n_forks n)) n in
                       match apply b (Some c) n with Some n => Returns n | None => Throws n end
           | None => Throws (set_forks (modify C (b_hash b) (set_invalid C) (n_forks n)) n)
           end
    end.
  Lemma apply_line_step b l n : apply_line (b :: l) n =
    if negb (b_prev b =? n_state n) then apply_line l n else match line_step b n with Returns n => apply_line l n | x => x end.
  Proof.
    cbn [ReorgModel.apply_line]. unfold line_step. destruct (negb _); auto. destruct (find_fork n (b_hash b)) as [f|]; auto. destruct (f_validated f).
    - destruct (apply b (f_ctx f) n); auto.
    - destruct (validate n b); auto. cbn. destruct (apply b (Some c) _); auto.
  Qed.
  (** on a node that is on top of a chain, the block goes on top of it, or it is found to be invalid *)
  Lemma line_step_inv b n ch : inv n ch -> U b -> ch <> [] -> b_prev b = n_state n ->
    match line_step b n with
    | Returns n' => inv n' (b :: ch) /\ n_root n' = n_root n /\ same_forks n n'
    | Throws n' => inv n' ch /\ n_root n' = n_root n /\ same_forks n n' /\ (find_fork n (b_hash b) = None \/ ~ uchain (b :: ch))
    | Spent => False
    end.
  Proof.
    intros I Ub NE P. unfold line_step. pose proof I as (B & T1 & T2). destruct (find_fork n (b_hash b)) as [f|] eqn:F; [|unfold same_forks; auto].
    destruct (fork_found _ _ _ F) as (J & HF). pose proof (proj1 (Forall_forall _ _) (B_forks _ _ B) _ J) as (Uf & OK).
    assert (f_block f = b) by (apply (Uinj genesis U GOOD); auto). subst b.
    destruct (f_validated f) eqn:W.
    - destruct (OK eq_refl) as (ch' & NE' & X & E). assert (ch' = ch).
      { apply (chain_same K_eqb valid effects genesis U GOOD); [eapply uchain_tail; eauto|apply B|]. rewrite <- T1, <- P.
        destruct ch' as [|q ch']; [congruence|]. destruct X as (((Q & _) & _) & _). cbn. auto. }
      subst ch'. destruct (apply_inv (f_block f) n ch I X) as (n' & A & I' & R & S & _). replace (f_ctx f) with (ctx_for ch (f_block f)).
      + rewrite A. split; auto. split; auto. unfold same_forks. now rewrite S.
      + rewrite E. unfold ReorgProofs.ctx_for. destruct ch; [congruence|reflexivity].
    - destruct (validate n (f_block f)) as [c|] eqn:VV.
      + destruct (validate_chain _ _ _ _ I Ub VV) as (_ & X & Z). cbn zeta.
        match goal with |- context [apply _ _ ?m] => set (n1 := m) end. assert (I1 : inv n1 ch).
        { apply inv_forks; auto. apply modify_ok; [|apply B]. intros g (Ug & _) Hg. split; auto. intros _. exists ch. assert (f_block g = f_block f) by (apply (Uinj genesis U GOOD); auto).
          cbn [ReorgModel.f_block ReorgModel.f_ctx]. rewrite H. auto. }
        destruct (apply_inv (f_block f) n1 ch I1 X) as (n' & A & I' & R & S & _). replace (Some c) with (ctx_for ch (f_block f)).
        * rewrite A. split; auto. split; auto. unfold same_forks. rewrite S. cbn. apply modify_blocks. reflexivity.
        * unfold ReorgProofs.ctx_for. destruct ch; [congruence|auto].
      + split; [|split; [reflexivity|split]].
        * apply inv_forks; auto. apply modify_ok; [|apply B]. intros g G _. exact G.
        * unfold same_forks. cbn. apply modify_blocks. reflexivity.
        * right. intros X. destruct (validate_again _ _ _ I X NE) as (c & Y & _). congruence.
  Qed.
End REORG.
