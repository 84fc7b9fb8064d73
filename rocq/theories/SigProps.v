(** C34: multi-signature contracts *)
Require Import List Arith NArith Bool Lia.
From Verif Require Import BytesLib EngineModel EngineUpper SigModel SigSpec.
Import ListNotations.
Open Scope N_scope.

Section CRYPTO.
  Variable get_addr : bytes -> addr.
  Variable verify : bytes -> bytes -> bytes -> bool.
  Notation count_signatures := (count_signatures get_addr verify).

  Lemma owner_In m a : owner m a = true <-> In a (ms_owners m).
  Proof.
    unfold owner. rewrite existsb_exists. split.
    - intros (x & I & E). destruct (addr_eqb_spec a x) as [->|]; [auto|discriminate].
    - intros I. exists a. split; auto. apply addr_eqb_refl.
  Qed.
  Lemma count_ok m txid v l : forall c c', NoDup (map fst l) -> count_signatures m txid v l c = Some c' ->
    exists L, NoDup L /\ incl L (map fst l) /\ incl L (ms_owners m) /\ c' = c + N.of_nat (length L) /\
      forall a, In a L -> exists pk sg, In (a, Some (PubKey pk sg)) l /\ get_addr pk = a /\ verify pk sg txid = true.
  Proof.
    induction l as [|(a, sol) l IH]; intros c c' ND E; cbn [SigModel.count_signatures] in E.
    - injection E as <-. exists []. split; [constructor|]. split; [intros x []|]. split; [intros x []|]. split; [cbn; lia|intros x []].
    - cbn [map fst] in ND. inversion ND as [|? ? NI ND']; subst.
      assert (SKIP : forall c, count_signatures m txid v l c = Some c' -> exists L, NoDup L /\ incl L (map fst ((a, sol) :: l)) /\ incl L (ms_owners m) /\ c' = c + N.of_nat (length L) /\
        forall b, In b L -> exists pk sg, In (b, Some (PubKey pk sg)) ((a, sol) :: l) /\ get_addr pk = b /\ verify pk sg txid = true).
      { intros c0 E0. destruct (IH c0 c' ND' E0) as (L & N1 & I1 & I2 & C1 & W). exists L. split; auto. split; [now apply incl_tl|]. split; auto. split; auto.
        intros b B. destruct (W b B) as (pk & sg & I & R). exists pk, sg. split; [now right|auto]. }
      destruct ((1 <=? v) && negb (owner m a)); [discriminate|]. destruct (owner m a) eqn:O; [|auto].
      destruct sol as [[pk sg| |]|]; try (destruct (1 <=? v); [discriminate|auto]; fail).
      destruct (addr_eqb_spec (get_addr pk) a) as [GA|]; [|discriminate]. cbn [negb] in E. destruct (verify pk sg txid) eqn:V; [|discriminate]. cbn [negb] in E.
      destruct (IH _ _ ND' E) as (L & N1 & I1 & I2 & C1 & W). exists (a :: L). split; [constructor; auto|]. split; [intros b [<-|B]; [now left|right; auto]|].
      split; [intros b [<-|B]; [now apply owner_In|auto]|]. split; [cbn [length]; lia|]. intros b [<-|B]; [exists pk, sg; split; [now left|auto]|].
      destruct (W b B) as (pk' & sg' & I & R). exists pk', sg'. split; [now right|auto].
  Qed.
  Lemma count_all m txid v l : forall c, Forall (fun e => In (fst e) (ms_owners m) /\ exists pk sg, snd e = Some (PubKey pk sg) /\ get_addr pk = fst e /\ verify pk sg txid = true) l ->
    count_signatures m txid v l c = Some (c + N.of_nat (length l)).
  Proof.
    induction l as [|(a, sol) l IH]; intros c F; cbn [SigModel.count_signatures length]; [f_equal; cbn; lia|]. inversion F as [|? ? (I & pk & sg & E & GA & V) F']; subst. cbn [fst snd] in *. subst sol.
    apply owner_In in I. rewrite I. cbn [negb]. rewrite andb_false_r, GA, addr_eqb_refl, V. cbn [negb]. rewrite IH by auto. f_equal. lia.
  Qed.

  (** ** C34.  A multi-signature contract accepts a solution only if at least [num_required] different owners have signed the transaction ... *)
  Theorem C34_enough_owners_signed : forall m sol txid version, a_map sol ->
    multisig_validate get_addr verify m (Some sol) txid version = true ->
    exists signers, NoDup signers /\ incl signers (ms_owners m) /\ ms_required m <= N.of_nat (length signers) /\ Forall (signed_by get_addr verify sol txid) signers.
  Proof.
    intros m sol txid v MAP H. destruct sol as [pk sg|req l|]; cbn [multisig_validate a_map] in *; [| |discriminate].
    - destruct (N.eqb_spec (ms_required m) 1) as [R|]; [|discriminate]. cbn [negb] in H. destruct (owner m (get_addr pk)) eqn:O; [|discriminate].
      exists [get_addr pk]. split; [constructor; [intros []|constructor]|]. split; [intros a [<-|[]]; now apply owner_In|]. split; [cbn; lia|].
      constructor; [|constructor]. exists pk, sg. split; [now left|auto].
    - destruct ((1 <=? v) && negb (req =? ms_required m)); [discriminate|]. destruct (count_signatures m txid v l 0) as [c|] eqn:C; [|discriminate].
      destruct (N.ltb_spec c (ms_required m)) as [|L]; [discriminate|]. destruct (count_ok m txid v l 0 c MAP C) as (S & ND & _ & I & -> & W).
      exists S. split; auto. split; auto. split; [lia|]. apply Forall_forall. intros a A. destruct (W a A) as (pk & sg & IN & GA & V). exists pk, sg. split; auto.
      cbn [signatures]. apply in_flat_map. exists (a, Some (PubKey pk sg)). split; auto. now left.
  Qed.
  (** ... and whenever it contains that many signatures and nothing else. *)
  Theorem C34_enough_signatures_accepted : forall m sol txid version,
    all_correct get_addr verify m txid sol -> ms_required m <= N.of_nat (length (signatures sol)) ->
    multisig_validate get_addr verify m (Some sol) txid version = true.
  Proof.
    intros m sol txid v A L. destruct sol as [pk sg|req l|]; cbn [all_correct multisig_validate] in *; [| |destruct A].
    - destruct A as (I & V & ->). cbn [N.eqb Pos.eqb negb]. apply owner_In in I. now rewrite I.
    - destruct A as (-> & F). rewrite N.eqb_refl. cbn [negb]. rewrite andb_false_r, (count_all m txid v l 0 F).
      assert (LE : (length (signatures (MultiSig (ms_required m) l)) <= length l)%nat).
      { clear. cbn [signatures]. induction l as [|(a, [[pk sg| |]|]) l IH]; cbn [flat_map snd app length]; lia. }
      destruct (N.ltb_spec (0 + N.of_nat (length l)) (ms_required m)); [lia|reflexivity].
  Qed.
  (** A contract that is valid asks for at least one signature and can be satisfied by its owners. *)
  Theorem C34_valid_contract : forall m, multisig_valid m = true -> 1 <= ms_required m <= N.of_nat (length (ms_owners m)).
  Proof.
    intros m H. unfold multisig_valid in H. apply andb_true_iff in H as (H & H3). apply andb_true_iff in H as (_ & H2). apply N.ltb_lt in H2. apply N.leb_le in H3. lia.
  Qed.
  (** An address without a contract accepts exactly a signature of the transaction by its own key. *)
  Theorem C34_plain_address : forall a sol txid, pubkey_validate get_addr verify a sol txid = true <->
    exists pk sg, sol = Some (PubKey pk sg) /\ get_addr pk = a /\ verify pk sg txid = true.
  Proof.
    intros a sol txid. split.
    - destruct sol as [[pk sg| |]|]; cbn; try discriminate. destruct (addr_eqb_spec (get_addr pk) a) as [E|]; [|discriminate]. cbn [negb]. intros V. exists pk, sg. auto.
    - intros (pk & sg & -> & <- & V). cbn. now rewrite addr_eqb_refl.
  Qed.
End CRYPTO.
Print Assumptions C34_enough_owners_signed.
Print Assumptions C34_enough_signatures_accepted.
Print Assumptions C34_valid_contract.
Print Assumptions C34_plain_address.
(** two of three owners; a key is its address here and its signature repeats key and transaction *)
Definition ms1 : multisig := mk_multisig 0 2 [repeat 1 32; repeat 2 32; repeat 3 32].
Definition verify1 (pk sg txid : bytes) : bool := addr_eqb sg (pk ++ txid).
Definition sign1 (i : N) (txid : bytes) : addr * option solution := (repeat i 32, Some (PubKey (repeat i 32) (repeat i 32 ++ txid))).
Example C34_case : let txid := repeat 9 32 in let ok l v := multisig_validate (fun pk => pk) verify1 ms1 (Some (MultiSig 2 l)) txid v in
  multisig_valid ms1 = true /\
  ok [sign1 1 txid; sign1 3 txid] 1 = true /\ ok [sign1 1 txid] 1 = false /\ ok [sign1 1 txid; sign1 4 txid] 1 = false /\
  ok [sign1 1 txid; sign1 3 (repeat 8 32)] 1 = false /\
  ok [sign1 1 txid; sign1 2 txid; sign1 4 txid] 1 = false /\ ok [sign1 1 txid; sign1 2 txid; sign1 4 txid] 0 = true.
Proof. vm_compute. repeat split. Qed.
Example C34_hypotheses : let txid := repeat 9 32 in let sol := MultiSig 2 [sign1 1 txid; sign1 3 txid] in
  a_map sol /\ all_correct (fun pk => pk) verify1 ms1 txid sol /\ ms_required ms1 <= N.of_nat (length (signatures sol)).
Proof.
  cbv zeta. split; [|split].
  - cbn [a_map map fst sign1]. repeat (constructor; [cbn; intuition discriminate|]). constructor.
  - cbn [all_correct]. split; [reflexivity|]. constructor; [|constructor; [|constructor]]; cbn [sign1 fst snd ms1 ms_owners].
    + split; [now left|]. eexists _, _. split; [reflexivity|]. split; reflexivity.
    + split; [right; right; now left|]. eexists _, _. split; [reflexivity|]. split; reflexivity.
  - vm_compute. discriminate.
Qed.
