(** Proofs for ReorgModel.v: a switch below the root that fails *)
Require Import List Arith NArith Bool Lia.
Import ListNotations.
From Verif Require Import DbSpec ReorgModel ReorgSpec ReorgProofs ReorgInvProofs ReorgRunProofs ReorgBackProofs.
Open Scope N_scope.

Definition block_dec : forall x y : block, {x = y} + {x <> y}.
Proof. decide equality; apply N.eq_dec. Defined.

Section REORG4.
  Context {K V C : Type} (K_eqb : K -> K -> bool).
  Variable valid : view K V -> block -> option C.
  Variable effects : view K V -> block -> option C -> list (K * V).
  Variable genesis : block.
  Variable commit_delay : N.
  Variable U : block -> Prop.
  Hypothesis GOOD : good_blocks U genesis.
  Hypothesis HON : honest U.

  Notation scratch := (scratch K_eqb valid effects).
  Notation chain := (chain K_eqb valid effects genesis).
  Notation uchain := (uchain K_eqb valid effects genesis U).
  Notation ctx_for := (ctx_for K_eqb valid effects).
  Notation the_view := (the_view K V K_eqb).
  Notation db := (db K V).
  Notation node := (node K V C).
  Notation fork := (fork C).
  Notation find_fork := (find_fork K V C).
  Notation find_stored := (find_stored K V C).
  Notation get_block := (get_block K V C).
  Notation n_root := (n_root K V C).
  Notation n_forks := (n_forks K V C).
  Notation n_db := (n_db K V C).
  Notation n_stored := (n_stored K V C).
  Notation n_state := (n_state K V C).
  Notation n_rank := (n_rank K V C).
  Notation n_trace := (n_trace K V C).
  Notation f_block := (f_block C).
  Notation f_validated := (f_validated C).
  Notation f_ctx := (f_ctx C).
  Notation apply := (apply K V C K_eqb effects).
  Notation revert := (revert K V C).
  Notation write_block := (write_block K V C).
  Notation validate := (validate K V C K_eqb valid).
  Notation set_forks := (set_forks K V C).
  Notation set_root := (set_root K V C).
  Notation mk_node := (mk_node K V C).

  Notation inv := (inv K_eqb valid effects genesis U).
  Notation base := (base K_eqb valid effects genesis U).
  Notation fork_ok := (fork_ok K_eqb valid effects genesis U).
  Notation disk_ok := (disk_ok K_eqb valid effects genesis U).
  Notation outcome := (outcome K V C).
  Notation apply_line := (apply_line K V C K_eqb valid effects).
  Notation apply_root := (apply_root K V C K_eqb valid effects).
  Notation same_forks := (@same_forks K V C).
  Notation add_fork := (add_fork K V C).
  Notation reset := (reset K V C K_eqb effects genesis commit_delay).
  Notation restore := (restore K V C K_eqb valid effects genesis commit_delay).
  Notation switch := (switch K V C K_eqb valid effects genesis commit_delay).
  Notation walk_line := (walk_line K V C).
  Notation fork_line := (fork_line K V C).
  Notation start := (start K V C K_eqb effects genesis commit_delay).
  Notation step := (step K V C K_eqb valid effects genesis commit_delay).
  Notation run := (run K V C K_eqb valid effects genesis commit_delay).

  Notation ok := (ok K_eqb valid effects genesis U).
  Notation blocks_in := (@blocks_in K V C).
  Notation healthy := (@healthy K V C).
  Notation go_back := (go_back K_eqb valid effects genesis commit_delay).
  Notation or_genesis := (or_genesis genesis).


  (** ** what holds of the root and the fork tree at any time *)
  Definition cover (n : node) (ch : list block) : Prop := forall r, n_root n = Some r -> In r ch -> forall b, In b ch -> b_height r < b_height b -> In b (map f_block (n_forks n)).
  Definition high (n : node) : Prop := forall r, n_root n = Some r -> U r /\ forall b, In b (map f_block (n_forks n)) -> b_height r < b_height b.
  Definition full (n : node) (ch : list block) : Prop := inv n ch /\ ch <> [] /\ cover n ch /\ high n.
  Definition fine (n : node) : Prop := exists ch, full n ch.

  Lemma healthy_cover n ch : healthy n ch -> cover n ch.
  Proof. intros (r & R & I & A) r' R'. assert (r' = r) by congruence. subst. auto. Qed.
  Lemma cover_healthy n ch r : n_root n = Some r -> In r ch -> cover n ch -> healthy n ch.
  Proof. intros R I A. exists r. split; [exact R|]. split; [exact I|]. exact (A r R I). Qed.
  Lemma cover_same n n' ch ch' : cover n ch -> n_root n' = n_root n -> incl (map f_block (n_forks n)) (map f_block (n_forks n')) ->
    (forall r, n_root n = Some r -> In r ch' -> forall b, In b ch' -> b_height r < b_height b -> (In r ch /\ In b ch) \/ In b (map f_block (n_forks n))) -> cover n' ch'.
  Proof. intros A R F S r Rr I b Ib L. rewrite R in Rr. destruct (S r Rr I b Ib L) as [(I1 & I2)|I1]; apply F; [eapply A; eauto|auto]. Qed.
  Lemma high_same n n' : high n -> n_root n' = n_root n -> map f_block (n_forks n') = map f_block (n_forks n) -> high n'.
  Proof. intros A R F r Rr. rewrite R in Rr. destruct (A r Rr) as (A1 & A2). split; auto. intros b I. rewrite F in I. auto. Qed.

  Lemma genesis_in ch : uchain ch -> ch <> [] -> In genesis ch.
  Proof.
    induction ch as [|b ch IH]; intros X NE; [congruence|]. destruct ch as [|c ch]; [destruct X as ((-> & _) & _); cbn; auto|]. right. apply IH; [eapply uchain_tail; eauto|discriminate].
  Qed.
  Lemma genesis_last ch : uchain ch -> ch <> [] -> exists l, ch = l ++ [genesis].
  Proof.
    induction ch as [|b ch IH]; intros X NE; [congruence|]. destruct ch as [|c ch]; [destruct X as ((-> & _) & _); exists []; reflexivity|].
    destruct IH as (l & E); [eapply uchain_tail; eauto|discriminate|]. exists (b :: l). cbn. now rewrite E.
  Qed.
  Lemma chain_prev l1 b l2 : uchain (l1 ++ b :: l2) -> b_prev b = top_hash l2.
  Proof. intros X. apply uchain_suffix in X. destruct l2 as [|c l2]; [destruct X as ((-> & _) & _); apply GOOD|destruct X as (((E & _) & _) & _); exact E]. Qed.
  Lemma top_U n ch : inv n ch -> ch <> [] -> exists b l, ch = b :: l /\ U b /\ n_state n = b_hash b.
  Proof. intros J NE. destruct ch as [|b l]; [congruence|]. exists b, l. split; auto. split; [apply (chain_U K_eqb valid effects genesis U n (b :: l) b J); cbn; auto|apply J]. Qed.
  Lemma prev_state_suffix n ch ch0 b l1 l2 : inv n ch -> ch <> [] -> uchain ch0 -> ch0 = l1 ++ b :: l2 -> b_prev b = n_state n -> l2 = ch.
  Proof.
    intros J NE X E P. subst ch0. apply (chain_same K_eqb valid effects genesis U GOOD); [|apply J|].
    - apply uchain_suffix in X. eapply uchain_tail; eauto.
    - rewrite <- (chain_prev _ _ _ X), P. apply J.
  Qed.

  (** ** stored blocks stay *)
  Lemma apply_stored b c n n' : apply b c n = Some n' -> incl (n_stored n) (n_stored n').
  Proof. unfold ReorgModel.apply. destruct (_ =? _); [|discriminate]. intros E. inversion E; subst. cbn. apply (write_same b n). Qed.
  Lemma apply_line_stored line : forall n n', (apply_line line n = Returns n' \/ apply_line line n = Throws n') -> incl (n_stored n) (n_stored n').
  Proof.
    induction line as [|b l IH]; intros n n' E.
    - cbn in E. destruct E as [E|E]; inversion E; subst. apply incl_refl.
    - rewrite apply_line_step in E. destruct (negb _); [apply IH; auto|]. destruct (line_step _ _ _ b n) as [n1|n1|] eqn:LS; [| |destruct E; discriminate].
      + eapply incl_tran; [|apply IH; exact E]. unfold line_step in LS. destruct (find_fork n (b_hash b)) as [f|]; [|discriminate]. destruct (f_validated f).
        * destruct (apply b _ n) eqn:A; inversion LS; subst. eapply apply_stored; eauto.
        * destruct (validate n b) as [c|]; [|discriminate]. cbn zeta in LS. destruct (apply b (Some c) _) eqn:A; inversion LS; subst. apply apply_stored in A. exact A.
      + destruct E as [E|E]; inversion E; subst. unfold line_step in LS. destruct (find_fork n (b_hash b)) as [f|]; [|inversion LS; apply incl_refl]. destruct (f_validated f).
        * destruct (apply b _ n); inversion LS; subst; apply incl_refl.
        * destruct (validate n b) as [c|]; [|inversion LS; apply incl_refl]. cbn zeta in LS. destruct (apply b (Some c) _); inversion LS; subst; apply incl_refl.
  Qed.
  Lemma apply_root_stored pok l : forall n n', (apply_root pok l n = Returns n' \/ apply_root pok l n = Throws n') -> incl (n_stored n) (n_stored n').
  Proof.
    induction l as [|b l IH]; intros n n' E; cbn [ReorgModel.apply_root] in E.
    - destruct E as [E|E]; inversion E; subst. apply incl_refl.
    - destruct (pok b); [|destruct E as [E|E]; inversion E; subst; apply incl_refl]. destruct (validate n b); [|destruct E as [E|E]; inversion E; subst; apply incl_refl].
      destruct (apply b _ n) as [n1|] eqn:A; [|destruct E as [E|E]; inversion E; subst; apply incl_refl]. eapply incl_tran; [eapply apply_stored; eauto|apply IH; auto].
  Qed.

  (** ** applying the blocks below the new root *)
  Lemma apply_root_parts pok l : forall n ch, inv n ch -> ch <> [] -> Forall U l ->
    match apply_root pok l n with
    | Spent => False
    | Returns n' => inv n' (rev l ++ ch) /\ n_root n' = n_root n /\ n_forks n' = n_forks n
    | Throws n' => exists done todo, l = done ++ todo /\ todo <> [] /\ inv n' (rev done ++ ch) /\ n_root n' = n_root n /\ n_forks n' = n_forks n /\ (done = [] -> n' = n)
    end.
  Proof.
    induction l as [|b l IH]; intros n ch I NE F.
    - cbn. auto.
    - cbn [ReorgModel.apply_root rev]. inversion F as [|? ? Ub F']; subst. assert (Z : inv n (rev [] ++ ch)) by exact I.
      destruct (pok b); [|exists [], (b :: l); repeat split; try apply Z; auto; discriminate].
      destruct (validate n b) as [c|] eqn:VV; [|exists [], (b :: l); repeat split; try apply Z; auto; discriminate].
      destruct (validate_chain _ _ _ _ _ GOOD _ _ _ _ I Ub VV) as (_ & X & Y). destruct (apply_inv _ _ _ _ _ GOOD b n ch I X) as (n1 & A & I1 & R & S & _).
      replace (Some c) with (ctx_for ch b) by (unfold ReorgProofs.ctx_for; destruct ch; [congruence|auto]). rewrite A.
      specialize (IH n1 (b :: ch) I1 ltac:(discriminate) F'). rewrite <- app_assoc. cbn [app]. destruct (apply_root pok l n1) as [n2|n2|]; auto.
      + destruct IH as (J & R2 & S2). split; auto. split; congruence.
      + destruct IH as (done & todo & -> & NT & J & R2 & S2 & _). exists (b :: done), todo. split; auto. split; auto. cbn [rev]. rewrite <- app_assoc. split; auto. split; [congruence|]. split; [congruence|discriminate].
  Qed.
  Lemma apply_root_again pok ch0 l : uchain ch0 -> forall n ch, inv n ch -> ch <> [] -> incl l ch0 -> (forall b, In b l -> pok b = true) -> follows (n_state n) l -> exists n', apply_root pok l n = Returns n'.
  Proof.
    intros X. induction l as [|b l IH]; intros n ch J NE IC PO P; cbn [ReorgModel.apply_root]; eauto. destruct P as (P & Q).
    rewrite (PO b) by (cbn; auto). assert (Xb : uchain (b :: ch)) by (eapply (in_chain_next K_eqb valid effects genesis U GOOD b n ch ch0); eauto; apply IC; cbn; auto).
    destruct (validate_again _ _ _ _ _ GOOD n ch b J Xb NE) as (c & VV & VC). rewrite VV.
    destruct (apply_inv _ _ _ _ _ GOOD b n ch J Xb) as (n1 & A & I1 & R & S & _).
    replace (Some c) with (ctx_for ch b) by (unfold ReorgProofs.ctx_for; destruct ch; [congruence|auto]). rewrite A. apply (IH n1 (b :: ch)); auto; [discriminate|intros x I; apply IC; cbn; auto|intros x I; apply PO; cbn; auto|].
    rewrite (proj1 (proj2 I1)). exact Q.
  Qed.
  Lemma walk_root_spec n ch : inv n ch -> forall fuel b acc p l, U b -> walk_root K V C n fuel (Some b) acc = Some (p, l) ->
    exists m, l = m ++ acc /\ In p ch /\ follows (b_hash p) m /\ last m p = b /\ (forall x, In x m -> ~ In x ch) /\ Forall U m.
  Proof.
    intros J. induction fuel as [|k IH]; intros b acc p l Ub E; cbn [walk_root] in E; [discriminate|].
    assert (HA : hash_at K V (n_db n) (b_height b) = option_map b_hash (at_height (b_height b) ch)) by (rewrite (B_db _ _ _ _ _ _ _ (proj1 J)); eapply scratch_hash; [exact GOOD|apply J]).
    destruct (in_dec block_dec b ch) as [I|NI].
    - rewrite HA in E. rewrite (in_at_height _ _ _ _ _ GOOD b ch) in E by (auto; apply J). cbn [option_map] in E. rewrite N.eqb_refl in E. inversion E; subst.
      exists []. split; [reflexivity|]. split; [exact I|]. split; [exact Logic.I|]. split; [reflexivity|]. split; [intros ? []|constructor].
    - assert (FF : match hash_at K V (n_db n) (b_height b) with Some x => x =? b_hash b | None => false end = false).
      { rewrite HA. destruct (at_height (b_height b) ch) as [y|] eqn:AH; auto. cbn [option_map]. destruct (N.eqb_spec (b_hash y) (b_hash b)) as [Q|]; auto. exfalso.
        destruct (at_height_in _ _ _ AH) as (Iy & _). apply NI. replace b with y; auto. apply (Uinj genesis U GOOD); auto. eapply (chain_U K_eqb valid effects genesis U); eauto. }
      rewrite FF in E. destruct (get_block n (b_prev b)) as [q|] eqn:G; [|destruct k; discriminate].
      destruct (get_found _ _ _ _ _ _ _ _ _ (proj1 J) G) as (Uq & Hq). destruct (IH q (b :: acc) p l Uq E) as (m & -> & A1 & A2 & A3 & A4 & A5).
      exists (m ++ [b]). rewrite <- app_assoc. split; auto. split; auto. split; [|split; [apply last_last|split]].
      + apply follows_app. split; auto. split; [|exact Logic.I]. rewrite <- Hq, <- A3. clear. destruct m as [|x m] using rev_ind; auto. rewrite map_app. cbn [map]. now rewrite !last_last.
      + intros x I. apply in_app_iff in I. destruct I as [I|[<-|[]]]; auto.
      + apply Forall_app. auto.
  Qed.
  Lemma walk_root_old n ch ch0 : inv n ch -> ch <> [] -> forall l2 r acc fuel, uchain (r :: l2) -> (forall x, In x (r :: l2) -> get_block n (b_hash x) = Some x) -> (length l2 < fuel)%nat -> incl acc ch0 -> incl (r :: l2) ch0 ->
    exists p l, walk_root K V C n fuel (Some r) acc = Some (p, l) /\ incl l ch0.
  Proof.
    intros J NE. induction l2 as [|q l2 IH]; intros r acc fuel X G L IA IC; (destruct fuel as [|k]; [lia|]); cbn [walk_root].
    - destruct X as ((E & _) & _). pose proof (genesis_in ch (B_chain _ _ _ _ _ _ _ (proj1 J)) NE) as IG.
      rewrite E. rewrite (B_db _ _ _ _ _ _ _ (proj1 J)), (scratch_hash _ _ _ _ _ GOOD) by apply J. rewrite (in_at_height _ _ _ _ _ GOOD genesis ch) by (auto; apply J).
      cbn [option_map]. rewrite N.eqb_refl. exists genesis, acc. split; auto.
    - destruct (match hash_at _ _ _ _ with Some x => _ | None => _ end); [exists r, acc; split; auto|].
      pose proof X as (((E & _) & _) & _). rewrite E, (G q) by (cbn; auto). apply IH; auto.
      + eapply uchain_tail; eauto.
      + intros x I. apply G. cbn in *. auto.
      + cbn [length] in L. lia.
      + intros x [<-|I]; [apply IC; cbn; auto|auto].
      + intros x I. apply IC. cbn in *. auto.
  Qed.

  (** ** the handler *)
  Lemma old_blocks_stop n : forall l1 ch1 acc fuel, uchain (l1 ++ ch1) -> l1 <> [] -> ch1 <> [] -> top_hash ch1 = n_state n -> (forall x, In x (l1 ++ ch1) -> get_block n (b_hash x) = Some x) ->
    (length l1 < fuel)%nat -> old_blocks K V C n fuel (top_hash (l1 ++ ch1)) acc = rev l1 ++ acc.
  Proof.
    induction l1 as [|b l1 IH]; intros ch1 acc fuel X NE NE1 T G L; [congruence|]. destruct fuel as [|k]; [lia|]. cbn [old_blocks app top_hash]. rewrite (G b) by (cbn; auto).
    pose proof (chain_prev [] b (l1 ++ ch1) X) as P. rewrite P. destruct l1 as [|c l1].
    - cbn [app]. rewrite T, N.eqb_refl. reflexivity.
    - destruct (N.eqb_spec (top_hash ((c :: l1) ++ ch1)) (n_state n)) as [E|E].
      + exfalso. pose proof (uchain_tail _ _ _ _ _ _ _ X) as X'. rewrite <- T in E. apply (chain_same K_eqb valid effects genesis U GOOD) in E; auto; [|eapply uchain_suffix; eauto].
        apply (f_equal (@length _)) in E. rewrite app_length in E. cbn [length] in E. lia.
      + rewrite IH; auto; [change (rev (b :: c :: l1)) with (rev (c :: l1) ++ [b]); rewrite <- app_assoc; reflexivity|eapply uchain_tail; eauto|discriminate|intros x I; apply G; cbn in *; auto|cbn [length] in *; lia].
  Qed.
  Lemma old_blocks_all n : forall ch acc fuel, uchain ch -> (forall b, In b ch -> b_prev b <> n_state n) -> (forall x, In x ch -> get_block n (b_hash x) = Some x) -> get_block n 0 = None ->
    (length ch < fuel)%nat -> old_blocks K V C n fuel (top_hash ch) acc = rev ch ++ acc.
  Proof.
    induction ch as [|b ch IH]; intros acc fuel X NP G Z L; (destruct fuel as [|k]; [lia|]); cbn [old_blocks top_hash].
    - rewrite Z. reflexivity.
    - rewrite (G b) by (cbn; auto). destruct (N.eqb_spec (b_prev b) (n_state n)) as [E|_]; [destruct (NP b); cbn; auto|].
      rewrite (chain_prev [] b ch X). rewrite IH; auto; [cbn [rev]; rewrite <- app_assoc; reflexivity|eapply uchain_tail; eauto|intros x I; apply NP; cbn; auto|intros x I; apply G; cbn; auto|cbn [length] in L; lia].
  Qed.
  Lemma reset_high n n' : reset n = Returns n' -> n_forks (mk_node None [] (n_db n) (n_stored n) (n_state n) (n_rank n) (n_trace n)) = [] -> Forall U (n_stored n') -> high n'.
  Proof.
    intros E _ US. unfold ReorgModel.reset in E. destruct (find_last _ _ _) as [(h, x)|].
    - set (n1 := mk_node _ _ _ _ x _ _) in E. assert (CT : forall fuel h m, n_forks m = [] -> n_forks (snd (check_top K V C fuel m h)) = []).
      { induction fuel as [|k IH]; intros h0 m Z; cbn [check_top]; auto. destruct (match hash_at _ _ _ _ with Some _ => _ | None => _ end); auto. destruct (_ =? _); auto. }
      specialize (CT (S (N.to_nat h)) h n1 eq_refl). destruct (check_top K V C _ n1 h) as (h2, n2). cbn [snd] in CT.
      destruct (hash_at _ _ _ _) as [y|]; [|discriminate]. destruct (find_stored n2 y) as [r|] eqn:FS; [|discriminate]. injection E as E.
      assert (SS : forall l m, let m' := fold_left (fun (n : node) (b : block) => if (b_height r <=? b_height b) && (b_height b <=? h2) then add_fork b n else n) l m in
                (n_root m = Some r -> (forall b, In b (map f_block (n_forks m)) -> b_height r < b_height b) -> n_root m' = Some r /\ forall b, In b (map f_block (n_forks m')) -> b_height r < b_height b) /\ n_stored m' = n_stored m).
      { induction l as [|b l IH]; intros m; cbn [fold_left]; [cbn; auto|]. set (m1 := if (_ : bool) then add_fork b m else m). destruct (IH m1) as (A1 & A2).
        assert (B : n_stored m1 = n_stored m /\ (n_root m = Some r -> (forall b, In b (map f_block (n_forks m)) -> b_height r < b_height b) -> n_root m1 = Some r /\ forall b, In b (map f_block (n_forks m1)) -> b_height r < b_height b)).
        { unfold m1. destruct (_ && _); auto. unfold ReorgModel.add_fork. destruct (n_root m) as [r0|] eqn:Rm; [|split; auto; discriminate]. destruct (N.leb_spec (b_height b) (b_height r0)); [split; [reflexivity|]; intros Q F; split; [congruence|exact F]|].
          destruct (find_fork m (b_hash b)); [split; [reflexivity|]; intros Q F; split; [congruence|exact F]|]. split; [reflexivity|]. intros Q F. inversion Q; subst r0. split; [exact Rm|]. intros z [<-|I]; auto. }
        destruct B as (B1 & B2). split; [|now rewrite A2]. intros Q F. destruct (B2 Q F). auto. }
      specialize (SS (n_stored n2) (set_root (Some r) n2)). cbn zeta in SS. destruct SS as (S1 & S2). rewrite E in S1, S2.
      destruct (S1 eq_refl) as (R & HH); [cbn; rewrite CT; intros ? []|]. intros r' Rr. assert (r' = r) by congruence. subst r'. split; auto.
      rewrite S2 in US. cbn in US. destruct (stored_found _ _ _ FS) as (IS & _). exact (proj1 (Forall_forall _ _) US _ IS).
    - destruct (apply genesis None _) as [n1|] eqn:A; [|discriminate]. inversion E; subst n'. intros r R. cbn in R. inversion R; subst r. split; [apply GOOD|].
      unfold ReorgModel.apply in A. destruct (_ =? _); [|discriminate]. inversion A; subst. intros b I. exfalso. exact I.
  Qed.
  Lemma mark_same line n : map f_block (n_forks (mark_invalid K V C line n)) = map f_block (n_forks n) /\ n_root (mark_invalid K V C line n) = n_root n.
  Proof.
    split; auto. unfold mark_invalid. cbn. generalize (n_forks n) as fs. induction line as [|b l IH]; intros fs; cbn [fold_left]; auto. rewrite IH. apply modify_blocks. reflexivity.
  Qed.
  Lemma restore_cases line n ch ch0 : inv n ch -> ch <> [] -> uchain ch0 -> ch0 <> [] -> incl ch0 (n_stored n) ->
    (exists l1, l1 <> [] /\ ch0 = l1 ++ ch /\ full (restore line (top_hash ch0) n) ch0 /\ healthy (restore line (top_hash ch0) n) ch0) \/
    (restore line (top_hash ch0) n = n /\ forall b, In b ch0 -> b_prev b <> n_state n).
  Proof.
    intros J NE X NE0 IC. assert (G : forall x, In x ch0 -> get_block n (b_hash x) = Some x) by (intros x I; apply (get_in K_eqb valid effects genesis U GOOD n ch x (proj1 J)), IC, I).
    assert (L : (length ch0 <= length (n_stored n))%nat) by (apply NoDup_incl_length; auto; eapply chain_nodup; eauto).
    destruct (existsb (fun b => b_prev b =? n_state n) ch0) eqn:EX.
    - left. apply existsb_exists in EX. destruct EX as (b & Ib & Eb). apply N.eqb_eq in Eb. apply in_split in Ib. destruct Ib as (m1 & m2 & E0).
      pose proof (prev_state_suffix n ch ch0 b m1 m2 J NE X E0 Eb) as ->. exists (m1 ++ [b]). split; [destruct m1; discriminate|]. rewrite <- app_assoc. cbn [app]. split; auto.
      unfold ReorgModel.restore. assert (E1 : ch0 = (m1 ++ [b]) ++ ch) by (rewrite <- app_assoc; exact E0).
      assert (OB : old_blocks K V C n (S (length (n_forks n) + length (n_stored n))) (top_hash ch0) [] = rev (m1 ++ [b])).
      { rewrite E1. rewrite old_blocks_stop; [apply app_nil_r|rewrite <- E1; exact X|destruct m1; discriminate|exact NE|symmetry; apply J|rewrite <- E1; exact G|].
        rewrite E1, !app_length in L. rewrite app_length. lia. }
      rewrite OB. assert (P : follows (n_state n) (rev (m1 ++ [b]))).
      { destruct (top_U n ch J NE) as (c & l & -> & _ & ->). eapply chain_path. rewrite <- E1. exact X. }
      destruct (apply_root_again (fun _ => true) ch0 (rev (m1 ++ [b])) X n ch J NE) as (n1 & A); auto.
      { intros x I. rewrite E1. apply in_app_iff. left. apply in_rev; auto. }
      pose proof (apply_root_parts (fun _ => true) (rev (m1 ++ [b])) n ch J NE) as AP. rewrite A in AP |- *.
      destruct AP as (J1 & _ & _). { apply Forall_forall. intros x I. apply in_rev in I. destruct X as (_ & FU). apply (proj1 (Forall_forall _ _) FU). rewrite E1. apply in_app_iff; auto. }
      rewrite rev_involutive, <- E1 in J1. destruct (reset_inv K_eqb valid effects genesis commit_delay U GOOD n1 ch0 J1) as (n2 & R2 & J2 & H2 & _). rewrite R2.
      assert (OG : or_genesis ch0 = ch0) by (destruct ch0; [congruence|reflexivity]). rewrite OG in J2, H2. destruct (mark_same line n2) as (MF & MR).
      assert (HI : high n2) by (eapply reset_high; eauto; apply J2).
      assert (HM : healthy (mark_invalid K V C line n2) ch0).
      { destruct H2 as (r & R & I & A2). exists r. split; [congruence|]. split; auto. intros y Iy Ly. rewrite MF. auto. }
      split; auto. split; [apply mark_inv; auto|]. split; auto. split; [apply healthy_cover; auto|eapply high_same; eauto].
    - right. assert (NP : forall b, In b ch0 -> b_prev b <> n_state n).
      { intros b I E. assert (T : existsb (fun b => b_prev b =? n_state n) ch0 = true) by (apply existsb_exists; exists b; split; auto; apply N.eqb_eq; auto). congruence. }
      split; auto. unfold ReorgModel.restore. rewrite old_blocks_all; auto; [|eapply get_zero; [exact GOOD|apply J]|lia].
      destruct (genesis_last ch0 X NE0) as (l & El). rewrite El, rev_app_distr, app_nil_r. cbn [rev app ReorgModel.apply_root]. unfold ReorgModel.validate.
      rewrite (proj2 (proj2 (proj2 (proj2 (proj2 GOOD))))), (get_zero K_eqb valid effects genesis U GOOD n ch (proj1 J)). reflexivity.
  Qed.
End REORG4.
