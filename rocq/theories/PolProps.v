(** C115: farming with a pool *)
Require Import List Arith NArith Bool Lia String Ascii.
From Verif Require Import BytesLib EngineModel EngineUpper CodecModel CtrProofs CtrModel CtrSpec CtrProps PolModel PolSpec PolProofs.
Import List ListNotations.
Open Scope N_scope.

Section NODE.
  Variable H : list N -> bytes.
  Variable check_sig : bytes -> bytes -> bytes -> bool.
  Variable find_challenge : N -> option (bytes * N).
  Variable verify_proof : proof -> bytes -> N -> N -> bool.
  Variables (vdf_height version : N).
  Notation accepts contracts height m t := (verify_partial H check_sig find_challenge verify_proof contracts height vdf_height version m t = NONE).
  (** everything about the partial itself is in order *)
  Definition sound (m : partial) (p : proof) : Prop :=
    m_proof m = Some p /\ m_hash m = H (text m) /\ (exists s, m_sig m = Some s /\ check_sig (p_farmer_key p) (m_hash m) s = true) /\
    m_vdf_height m <= vdf_height /\ (exists d, find_challenge (m_vdf_height m) = Some (p_challenge p, d)) /\
    verify_proof p (p_challenge p) (p_difficulty p) (m_vdf_height m) = true.

  (** ** Exactly the partials that are in order are accepted; with a pool target, exactly when the plot was made for the plot NFT that the partial names, and that one names the pool. *)
  Theorem C115_accept : forall contracts height m t, accepts contracts height m t <->
    exists p, sound m p /\
      match t with
      | None => True
      | Some pool => exists v, p_contract p = Some (m_contract m) /\ contracts (m_contract m) = Some (PlotNFT v) /\ names v height pool
      end.
  Proof.
    intros contracts height m t. unfold verify_partial, sound, calc_hash. destruct (m_proof m) as [p|] eqn:P; [|split; [discriminate|intros (p & (X & _) & _); discriminate]].
    destruct (beq (m_hash m) (H (text m))) eqn:HB; cbn [negb].
    2: { split; [discriminate|]. intros (q & (_ & X & _) & _). apply beq_iff in X. congruence. }
    apply beq_iff in HB.
    destruct (m_sig m) as [s|] eqn:SG; [|split; [discriminate|intros (q & (_ & _ & (s & X & _) & _) & _); discriminate]].
    destruct (check_sig (p_farmer_key p) (m_hash m) s) eqn:CS; cbn [negb].
    2: { split; [discriminate|]. intros (q & (X & _ & (s' & Y & Z) & _) & _). injection X as <-. injection Y as <-. congruence. }
    destruct (N.ltb_spec vdf_height (m_vdf_height m)) as [L|L].
    { split; [discriminate|]. intros (q & (_ & _ & _ & X & _) & _). lia. }
    destruct (find_challenge (m_vdf_height m)) as [[c d]|] eqn:FC; [|split; [discriminate|intros (q & (_ & _ & _ & _ & (d & X) & _) & _); discriminate]].
    destruct (beq (p_challenge p) c) eqn:CB; cbn [negb].
    2: { split; [discriminate|]. intros (q & (X & _ & _ & _ & (d' & Y) & _) & _). injection X as <-. injection Y as Y _. symmetry in Y. apply beq_iff in Y. congruence. }
    apply beq_iff in CB. subst c.
    destruct (verify_proof p (p_challenge p) (p_difficulty p) (m_vdf_height m)) eqn:VP; cbn [negb].
    2: { split; [discriminate|]. intros (q & (X & _ & _ & _ & _ & Y) & _). injection X as <-. congruence. }
    assert (OK : Some p = Some p /\ m_hash m = H (text m) /\ (exists s0, Some s = Some s0 /\ check_sig (p_farmer_key p) (m_hash m) s0 = true) /\
      m_vdf_height m <= vdf_height /\ (exists d0, Some (p_challenge p, d) = Some (p_challenge p, d0)) /\
      verify_proof p (p_challenge p) (p_difficulty p) (m_vdf_height m) = true) by (repeat split; eauto).
    destruct t as [pool|]; [|split; [intros _; exists p; auto|auto]].
    destruct (p_contract p) as [c|] eqn:PC.
    - destruct (addr_eqb_spec (m_contract m) c) as [<-|NE]; cbn [negb].
      + rewrite plot_target. split; [intros (v & A & B); exists p; split; [exact OK|]; exists v; auto|].
        intros (q & (X & _) & v & _ & A & B). exists v. auto.
      + split; [discriminate|]. intros (q & (X & _) & v & A & _). injection X as <-. rewrite PC in A. congruence.
    - split; [discriminate|]. intros (q & (X & _) & v & A & _). injection X as <-. rewrite PC in A. discriminate.
  Qed.

  (** ** What is signed: the same text says the same, except for where the address of the pool ends and the name of the harvester begins. *)
  Theorem C115_binding : forall m m' p q, fits m -> fits m' -> m_proof m = Some p -> m_proof m' = Some q -> text m = text m' ->
    m_vdf_height m = m_vdf_height m' /\ m_contract m = m_contract m' /\ m_account m = m_account m' /\ m_lookup_ms m = m_lookup_ms m' /\ same_proof p q /\
    m_pool_url m ++ txt "harvester:" ++ m_harvester m = m_pool_url m' ++ txt "harvester:" ++ m_harvester m'.
  Proof. intros m m' p q. apply text_inj. Qed.
  (** So the account that gets the credit is one that the holder of the key of the plot has signed, or the hash has a collision. *)
  Theorem C115_credit : forall contracts height m m' t p, accepts contracts height m (Some t) -> m_proof m = Some p -> fits m -> fits m' -> m_proof m' <> None ->
    m_hash m' = H (text m') -> m_hash m' = m_hash m ->
    (m_account m' = m_account m /\ m_contract m' = m_contract m /\ m_proof m' = Some p) \/ (text m' <> text m /\ H (text m') = H (text m)).
  Proof.
    intros contracts height m m' t p A P F F' PP HH HE. apply C115_accept in A as (p' & (P' & HA & _) & v & PC & _). assert (p' = p) by congruence. subst p'.
    destruct (list_eq_dec N.eq_dec (text m') (text m)) as [E|NE]; [|right; split; [exact NE|congruence]].
    destruct (m_proof m') as [q|] eqn:Q; [|congruence]. left. symmetry in E.
    destruct (text_inj m m' p q F F' P Q E) as (_ & C & Ac & _ & SP & _). unfold same_proof in SP. rewrite PC in SP. subst q. auto.
  Qed.

  (** ** What the pool gets: a plot NFT that does not belong to the pool itself is locked to it, and a block won with the plot that pays somebody pays the pool, whatever account the farmer names. *)
  Theorem C115_reward : forall contracts height m t p, accepts contracts height m (Some t) -> m_proof m = Some p ->
    exists v, contracts (m_contract m) = Some (PlotNFT v) /\
      (PlotNft.owner v <> t -> locked v height /\ PlotNft.target v = Some t /\
        forall a c account, reward_ok contracts height version p (Some a) c account = true -> a = t).
  Proof.
    intros contracts height m t p A P. apply C115_accept in A as (q & (Q & _) & v & PC & CV & NM). rewrite P in Q. injection Q as <-.
    exists v. split; auto. intros O. destruct NM as [(L & T)|(L & X)]; [|congruence]. split; auto. split; auto.
    intros a c account R. unfold reward_ok in R. rewrite PC in R. destruct c as [c|]; [|discriminate]. apply andb_true_iff in R as (R1 & R2).
    destruct (addr_eqb_spec c (m_contract m)) as [->|]; [|discriminate]. rewrite target_eq, CV in R2. apply locked_iff in L. unfold locked_b in L. rewrite L, T in R2.
    destruct (addr_eqb_spec a t); [assumption|discriminate].
  Qed.
  (** ** and for how long: until the height that the plot NFT tells, or for 256 blocks when nobody has asked to unlock it, whatever is called by then. *)
  Theorem C115_horizon : forall contracts height m t p v bal l v' bal' k g contracts',
    accepts contracts height m (Some t) -> m_proof m = Some p -> contracts (m_contract m) = Some (PlotNFT v) -> PlotNft.owner v <> t ->
    history PlotNft.exec (v, bal) height l (v', bal') k -> k <= g -> g < held_until v height -> g < 2 ^ 64 -> contracts' (m_contract m) = Some (PlotNFT v') ->
    forall a c account, reward_ok contracts' g version p (Some a) c account = true -> a = t.
  Proof.
    intros contracts height m t p v bal l v' bal' k g contracts' A P CV O HI LE GH GB CV' a c account R.
    apply C115_accept in A as (q & (Q & _) & w & PC & CW & NM). rewrite P in Q. injection Q as <-. assert (w = v) by congruence. subst w.
    destruct NM as [(L & T)|(L & X)]; [|congruence].
    destruct (held t g _ _ _ _ _ HI T LE GH GB) as (L' & T'). cbn [fst] in *.
    unfold reward_ok in R. rewrite PC in R. destruct c as [c|]; [|discriminate]. apply andb_true_iff in R as (R1 & R2).
    destruct (addr_eqb_spec c (m_contract m)) as [->|]; [|discriminate]. rewrite target_eq, CV' in R2. apply locked_iff in L'. unfold locked_b in L'. rewrite L', T' in R2.
    destruct (addr_eqb_spec a t); [assumption|discriminate].
  Qed.

  (** ** An honest farmer: what the harvester finds for a locked plot NFT and the farmer signs is accepted, and the credit goes to the address that the farmer set, else to the owner of the plot NFT. *)
  Theorem C115_honest : forall contracts height keys sign sk reward_addr h c owner url name ms p t v d,
    p_contract p = Some c -> keys (p_farmer_key p) = Some sk -> (forall x, check_sig (p_farmer_key p) x (sign sk x) = true) ->
    contracts c = Some (PlotNFT v) -> locked v height -> PlotNft.target v = Some t ->
    h <= vdf_height -> find_challenge h = Some (p_challenge p, d) -> verify_proof p (p_challenge p) (p_difficulty p) h = true ->
    exists m, farmer_signs H keys sign reward_addr (harvest h c owner url name ms p) = Some m /\ accepts contracts height m (Some t) /\
      m_account m = match reward_addr with Some a => a | None => owner end.
  Proof.
    intros contracts height keys sign sk reward_addr h c owner url name ms p t v d PC K SG CV L T LH FC VP.
    unfold farmer_signs, harvest. cbn [m_proof m_vdf_height m_hash m_contract m_account m_pool_url m_harvester m_lookup_ms m_sig]. rewrite K.
    eexists. split; [reflexivity|]. split; [|reflexivity]. apply C115_accept. exists p. unfold sound.
    cbn [m_proof m_vdf_height m_hash m_contract m_sig]. split.
    - split; [reflexivity|]. split; [reflexivity|]. split; [eexists; split; [reflexivity|apply SG]|]. split; [exact LH|]. split; [eauto|exact VP].
    - exists v. split; [exact PC|]. split; [exact CV|]. left. auto.
  Qed.
  (** Without the key of the plot nothing is sent. *)
  Theorem C115_no_key : forall keys sign reward_addr m p, m_proof m = Some p -> keys (p_farmer_key p) = None -> farmer_signs H keys sign reward_addr m = None.
  Proof. intros keys sign reward_addr m p P K. unfold farmer_signs. now rewrite P, K. Qed.

  (** ** What the node tells about a plot NFT is what its rewards follow, for heights below 2^32. *)
  Theorem C115_info : forall contracts height a l u t, get_plot_nft_info contracts height a = Some (l, u, t) ->
    exists v, contracts a = Some (PlotNFT v) /\
      (match PlotNft.unlock_height v with Some x => x < 2 ^ 32 | None => True end ->
        u = PlotNft.unlock_height v /\ (l = true <-> locked v height) /\
        forall farmer, get_plot_nft_target contracts height version a farmer = if l then t else match farmer with Some f => Some f | None => Some (PlotNft.owner v) end).
  Proof.
    intros contracts height a l u t E. unfold get_plot_nft_info in E. destruct (contracts a) as [[v|]|] eqn:C; try discriminate. exists v. split; auto. intros B.
    assert (U : match PlotNft.unlock_height v with Some x => Some (x mod 2 ^ 32) | None => None end = PlotNft.unlock_height v).
    { destruct (PlotNft.unlock_height v); auto. now rewrite N.mod_small. }
    rewrite U in E. injection E as <- <- <-. split; auto. split; [apply locked_iff|]. intros f. rewrite target_eq, C.
    destruct (match PlotNft.unlock_height v with Some u => height <? u | None => true end); reflexivity.
  Qed.

  (** ** The other side: a plot NFT that is not locked and belongs to the pool passes as well, and its blocks may pay anybody. *)
  Theorem C115_unlocked_refuted : forall contracts height m p v, sound m p -> p_contract p = Some (m_contract m) -> contracts (m_contract m) = Some (PlotNFT v) -> ~ locked v height ->
    accepts contracts height m (Some (PlotNft.owner v)) /\
    forall farmer, reward_ok contracts height version p (Some farmer) (Some (m_contract m)) (Some farmer) = true.
  Proof.
    intros contracts height m p v S PC CV L. split.
    - apply C115_accept. exists p. split; auto. exists v. split; auto. split; auto. right. auto.
    - intros f. unfold reward_ok. rewrite PC, target_eq, CV.
      fold (locked_b v height). destruct (locked_b v height) eqn:LB; [exfalso; apply L; now apply locked_iff|].
      destruct (addr_eqb_spec (m_contract m) (m_contract m)); [|congruence]. destruct (addr_eqb_spec f f); [reflexivity|congruence].
  Qed.
End NODE.
Print Assumptions C115_accept.
Print Assumptions C115_binding.
Print Assumptions C115_credit.
Print Assumptions C115_reward.
Print Assumptions C115_horizon.
Print Assumptions C115_honest.
Print Assumptions C115_no_key.
Print Assumptions C115_info.
Print Assumptions C115_unlocked_refuted.

(** ** Cases *)
Definition K (n : N) : bytes := repeat n 32.
Definition key1 : bytes := repeat 7 33.
Definition the_proof : proof := mk_proof 100 (K 1) (K 2) 50 key1 29 (K 3) [5; 70; 123456] (Some (K 4)).
(** toy functions in the place of those outside of the model *)
Definition H0 (l : list N) : bytes := l.
Definition sig0 (k h s : bytes) : bool := beq s (k ++ h).
Definition chal0 (h : N) : option (bytes * N) := if h =? 900 then Some (K 2, 1) else None.
Definition proof0 (p : proof) (c : bytes) (d h : N) : bool := (d <=? 50) && beq c (p_challenge p).
Definition keys0 (k : bytes) : option bytes := if beq k key1 then Some key1 else None.
Definition sign0 (sk h : bytes) : bytes := sk ++ h.
Definition found (url name : string) (reward : option addr) : option partial :=
  farmer_signs H0 keys0 sign0 reward (harvest 900 (K 4) (K 5) (txt url) (txt name) 37 the_proof).
Definition with_nft (v : PlotNft.vars) : addr -> option contract := fun a => if addr_eqb a (K 4) then Some (PlotNFT v) else None.
Definition locked_nft := PlotNft.mk (K 5) (Some (K 9)) None.
Definition verify m v t := verify_partial H0 sig0 chal0 proof0 (with_nft v) 1000 950 1 m t.
Definition verify_o (m : option partial) v t := match m with Some m => Some (verify m v t) | None => None end.
Example C115_case :
  verify_o (found "pool.example" "shed" (Some (K 6))) locked_nft (Some (K 9)) = Some NONE /\
  verify_o (found "pool.example" "shed" None) locked_nft (Some (K 9)) = Some NONE /\
  (* another pool *)
  verify_o (found "pool.example" "shed" None) locked_nft (Some (K 8)) = Some INVALID_CONTRACT /\
  (* unlocked since *)
  verify_o (found "pool.example" "shed" None) (PlotNft.mk (K 5) (Some (K 9)) (Some 1000)) (Some (K 9)) = Some INVALID_CONTRACT /\
  verify_o (found "pool.example" "shed" None) (PlotNft.mk (K 5) (Some (K 9)) (Some 1001)) (Some (K 9)) = Some NONE /\
  (* the account changed afterwards *)
  match found "pool.example" "shed" None with
  | Some m => verify (mk_partial (m_vdf_height m) (m_hash m) (m_contract m) (K 66) (m_pool_url m) (m_harvester m) (m_lookup_ms m) (m_proof m) (m_sig m)) locked_nft (Some (K 9)) = INVALID_SIGNATURE
  | None => False
  end.
Proof. vm_compute. auto 10. Qed.
Example C115_case_fits : match found "pool.example" "shed" None with Some m => fits m | None => False end.
Proof.
  assert (S32 : forall n, n < 256 -> sized 32 (K n)) by (intros n L; split; [reflexivity|apply Forall_forall; intros x I; apply repeat_spec in I; subst; exact L]).
  assert (S33 : sized 33 key1) by (split; [reflexivity|apply Forall_forall; intros x I; apply repeat_spec in I; subst; reflexivity]).
  change (sized 32 (K 4) /\ sized 32 (K 5) /\ proof_fits the_proof).
  split; [apply S32; reflexivity|]. split; [apply S32; reflexivity|]. unfold proof_fits, the_proof; cbn.
  split; [apply S32; reflexivity|]. split; [apply S32; reflexivity|]. split; [exact S33|]. split; apply S32; reflexivity.
Qed.
(** Two different pairs of address and name have the same text, so one signature is good for both. *)
Theorem C115_split_refuted : match found "a" "bharvester:c" None, found "aharvester:b" "c" None with
  | Some m, Some m' => m_pool_url m <> m_pool_url m' /\ m_hash m = m_hash m' /\ m_sig m = m_sig m' /\ verify m locked_nft (Some (K 9)) = NONE /\ verify m' locked_nft (Some (K 9)) = NONE
  | _, _ => False
  end.
Proof. vm_compute. repeat split; congruence. Qed.
(** The plot NFT that belongs to the pool but was never locked is reached by a transfer, and is taken by the pool while the farmer keeps the block. *)
Theorem C115_given_away : exists p m v bal, happens PlotNft.exec (PlotNft.init (K 5), fun _ => 0) (Call (mk_env (Some (K 5)) 10 None (K 4) 1) (PlotNft.Transfer (K 9))) p m (v, bal) /\
  verify_o (found "pool.example" "shed" (Some (K 6))) v (Some (K 9)) = Some NONE /\
  reward_ok (with_nft v) 1000 1 the_proof (Some (K 66)) (Some (K 4)) (Some (K 66)) = true.
Proof.
  do 4 eexists. split; [eapply happens_call; vm_compute; reflexivity|]. split; vm_compute; reflexivity.
Qed.
Print Assumptions C115_split_refuted.
Print Assumptions C115_given_away.
