(** The pool of transactions *)
Require Import List Arith NArith Bool Lia.
From Verif Require Import BytesLib EngineModel EngineUpper TxModel PoolModel PoolSpec.
Import ListNotations.
Open Scope N_scope.

(** ** Maps as lists *)
Section MAPS.
  Context {K V : Type} (eqb : K -> K -> bool) (S : forall x y, reflect (x = y) (eqb x y)).
  Lemma eqb_refl' x : eqb x x = true.
  Proof. destruct (S x x); congruence. Qed.
  Lemma del_In k l (e : K * V) : In e (del eqb k l) <-> In e l /\ fst e <> k.
  Proof. unfold del. rewrite filter_In. destruct (S k (fst e)); cbn; intuition congruence. Qed.
  Lemma del_nodup k (l : list (K * V)) : NoDup (map fst l) -> NoDup (map fst (del eqb k l)).
  Proof.
    induction l as [|(k', v) l IH]; cbn; intros H; auto. inversion H as [|? ? NI ND]; subst. destruct (negb (eqb k k')); auto. cbn. constructor; auto.
    intros I. apply NI. apply in_map_iff in I as (e & <- & I). apply del_In in I as (I & _). now apply in_map.
  Qed.
  Lemma put_nodup k v (l : list (K * V)) : NoDup (map fst l) -> NoDup (map fst (put eqb k v l)).
  Proof. intros H. cbn. constructor; [|now apply del_nodup]. intros I. apply in_map_iff in I as (e & E & I). apply del_In in I as (_ & N). congruence. Qed.
  Lemma find_In k (l : list (K * V)) v : lfind eqb k l = Some v -> In (k, v) l.
  Proof. induction l as [|(k', v') l IH]; [discriminate|]. rewrite lfind_cons. destruct (S k k') as [->|]; [intros [= ->]; now left|right; auto]. Qed.
  Lemma find_none k (l : list (K * V)) : lfind eqb k l = None -> forall v, ~ In (k, v) l.
  Proof.
    induction l as [|(k', v') l IH]; intros H v I; [destruct I|]. rewrite lfind_cons in H. destruct (S k k') as [->|N]; [discriminate|]. destruct I as [E|I]; [congruence|]. eapply IH; eauto.
  Qed.
  Lemma find_del k k' (l : list (K * V)) : lfind eqb k (del eqb k' l) = if eqb k k' then None else lfind eqb k l.
  Proof.
    induction l as [|(x, v) l IH]; [cbn; now destruct (eqb k k')|]. cbn [del filter fst]. destruct (S k' x) as [->|N]; cbn [negb].
    - fold (del eqb x l). rewrite IH, lfind_cons. now destruct (S k x).
    - rewrite !lfind_cons. fold (del eqb k' l). rewrite IH. destruct (S k x) as [->|]; auto. destruct (S x k'); congruence.
  Qed.
  Lemma find_put k k' v (l : list (K * V)) : lfind eqb k (put eqb k' v l) = if eqb k k' then Some v else lfind eqb k l.
  Proof. unfold put. rewrite lfind_cons, find_del. now destruct (eqb k k'). Qed.
  Lemma emplace_In k v (l : list (K * V)) e : In e (emplace eqb k v l) <-> In e l \/ (lfind eqb k l = None /\ e = (k, v)).
  Proof. unfold emplace. destruct (lfind eqb k l); cbn; intuition (try congruence). Qed.
  Lemma emplace_nodup k v (l : list (K * V)) : NoDup (map fst l) -> NoDup (map fst (emplace eqb k v l)).
  Proof.
    intros H. unfold emplace. destruct (lfind eqb k l) eqn:E; auto. cbn. constructor; auto. intros I. apply in_map_iff in I as ((k', v') & <- & I). eapply find_none; eauto.
  Qed.
  Lemma nodup_same k v v' (l : list (K * V)) : NoDup (map fst l) -> In (k, v) l -> In (k, v') l -> v = v'.
  Proof.
    induction l as [|(x, u) l IH]; cbn; intros N I I'; [destruct I|]. inversion N as [|? ? NI ND]; subst. destruct I as [E|I], I' as [E'|I']; try congruence; auto.
    - injection E as -> ->. destruct NI. apply (in_map fst) in I'. exact I'.
    - injection E' as -> ->. destruct NI. apply (in_map fst) in I. exact I.
  Qed.
End MAPS.
Lemma pair_eqb_spec x y : reflect (x = y) (pair_eqb x y).
Proof. destruct x as (a, b), y as (c, d). unfold pair_eqb. cbn. destruct (addr_eqb_spec a c), (addr_eqb_spec b d); constructor; congruence. Qed.

(** ** Fees *)
Lemma fees_cons a e l : fees_from a (e :: l) = (if from a (pe_tx e) then pe_fee e else 0) + fees_from a l.
Proof. reflexivity. Qed.
Lemma fees_del a id (l : list (addr * entry)) e : NoDup (map fst l) -> In (id, e) l ->
  fees_from a (map snd l) = (if from a (pe_tx e) then pe_fee e else 0) + fees_from a (map snd (del addr_eqb id l)).
Proof.
  induction l as [|(x, u) l IH]; cbn [map fst]; intros N I; [destruct I|]. inversion N as [|? ? NI ND]; subst. cbn [snd]. rewrite fees_cons. cbn [del filter fst].
  destruct (addr_eqb_spec id x) as [->|NE]; cbn [negb].
  - destruct I as [E|I]; [|destruct NI; now apply (in_map fst) in I]. injection E as ->. f_equal.
    assert (D : del addr_eqb x l = l); [|now fold (del addr_eqb x l); rewrite D].
    clear - NI. unfold del. induction l as [|(y, w) l IH]; auto. cbn [filter fst]. destruct (addr_eqb_spec x y) as [->|]; [destruct NI; now left|]. cbn [negb]. f_equal. apply IH. intros I. apply NI. now right.
  - destruct I as [E|I]; [congruence|]. cbn [map snd]. rewrite fees_cons. fold (del addr_eqb id l). rewrite (IH ND I). lia.
Qed.
Lemma del_out {V} id (l : list (addr * V)) : (forall v, ~ In (id, v) l) -> del addr_eqb id l = l.
Proof.
  intros H. unfold del. induction l as [|(y, w) l IH]; auto. cbn [filter fst]. destruct (addr_eqb_spec id y) as [->|]; [destruct (H w); now left|]. cbn [negb]. f_equal. apply IH. intros v I. apply (H v). now right.
Qed.
Definition M32 := 2 ^ 32.
Definition M64 := 2 ^ 64.
Lemma sub64_ok x y : x + y < M64 -> sub64 (x + y) y = x.
Proof.
  intros L. unfold sub64. fold M64. replace (x + y + M64 - y) with (x + 1 * M64) by lia. rewrite N.mod_add by discriminate. apply N.mod_small. lia.
Qed.
Lemma fees_bound a l : (forall e, In e l -> pe_fee e < M32) -> fees_from a l <= N.of_nat (length l) * (M32 - 1).
Proof.
  induction l as [|e l IH]; intros H; [cbn; lia|]. rewrite fees_cons. specialize (IH (fun e I => H e (or_intror I))). pose proof (H e (or_introl eq_refl)).
  cbn [length]. rewrite Nat2N.inj_succ, N.mul_succ_l. destruct (from a (pe_tx e)); lia.
Qed.
Lemma fees_small a l : (forall e, In e l -> pe_fee e < M32) -> N.of_nat (length l) <= M32 -> fees_from a l < M64.
Proof.
  intros H L. pose proof (fees_bound a l H). assert (N.of_nat (length l) * (M32 - 1) <= M32 * (M32 - 1)) by (apply N.mul_le_mono_r; auto).
  change (M32 * (M32 - 1)) with 18446744069414584320 in *. change M64 with 18446744073709551616. lia.
Qed.
Definition recorded (p : pool) (a : addr) : N := match lfind addr_eqb a (pl_fees p) with Some v => v | None => 0 end.

Section POOL.
  Variable memo_key : addr -> bytes -> addr.
  Notation index_keys := (index_keys memo_key).
  Definition io_same (t t' : tx) : Prop := t_sender t = t_sender t' /\ t_inputs t = t_inputs t' /\ t_outputs t = t_outputs t'.
  Lemma keys_same t t' : io_same t t' -> t_result t = None -> t_result t' = None -> index_keys t = index_keys t'.
  Proof. intros (_ & E1 & E2) R R'. unfold PoolModel.index_keys, get_inputs, get_outputs. now rewrite E1, E2, R, R'. Qed.
  Record pool_ok (U : tx -> Prop) (p : pool) : Prop := mk_pool_ok {
    po_nodup : NoDup (map fst (pl_txs p));
    po_small : N.of_nat (length (pl_txs p)) <= M32;
    po_entry : forall id e, In (id, e) (pl_txs p) -> t_id (pe_tx e) = id /\ U (pe_tx e) /\ t_sender (pe_tx e) <> None /\ t_result (pe_tx e) = None /\ pe_fee e < M32;
    po_fees : forall a, recorded p a = fees_from a (entries p);
    po_inodup : NoDup (map fst (pl_index p));
    po_index : forall k id t, In ((k, id), t) (pl_index p) -> t_id t = id /\ U t /\ t_result t = None /\ exists e, In (id, e) (pl_txs p) /\ In k (index_keys (pe_tx e));
    po_index' : forall id e k, In (id, e) (pl_txs p) -> In k (index_keys (pe_tx e)) -> exists t, In ((k, id), t) (pl_index p) }.
  Lemma ok_bound U p a : pool_ok U p -> fees_from a (entries p) < M64.
  Proof.
    intros OK. apply fees_small; [|unfold entries; rewrite map_length; apply (po_small _ _ OK)]. intros e I. unfold entries in I. apply in_map_iff in I as ((id, e') & <- & I).
    now destruct (po_entry _ _ OK id e' I) as (_ & _ & _ & _ & B).
  Qed.

  Lemma emplace_all t keys : forall ix, NoDup (map fst ix) ->
    let ix' := fold_left (fun x k => emplace pair_eqb (k, t_id t) t x) keys ix in
    NoDup (map fst ix') /\ (forall e, In e ix' -> In e ix \/ exists k, In k keys /\ e = ((k, t_id t), t)) /\ (forall e, In e ix -> In e ix') /\
    (forall k, In k keys -> exists t', In ((k, t_id t), t') ix').
  Proof.
    induction keys as [|k keys IH]; intros ix N; cbn [fold_left]; [cbv zeta; split; auto; split; auto; split; auto; intros k []|].
    destruct (IH (emplace pair_eqb (k, t_id t) t ix) (emplace_nodup _ pair_eqb_spec _ _ _ N)) as (N' & I1 & I2 & I3). cbv zeta. split; auto. split; [|split].
    - intros e I. destruct (I1 e I) as [J|(k' & J & ->)]; [|right; exists k'; split; [now right|auto]]. apply emplace_In in J as [J|(_ & ->)]; auto. right. exists k. split; [now left|auto].
    - intros e I. apply I2. apply emplace_In. auto.
    - intros k' [<-|I]; [|auto]. destruct (lfind pair_eqb (k, t_id t) ix) as [t'|] eqn:E.
      + apply (find_In _ pair_eqb_spec) in E. exists t'. apply I2. apply emplace_In. auto.
      + exists t. apply I2. apply emplace_In. auto.
  Qed.
  Lemma del_all id keys : forall (ix : list ((addr * addr) * tx)), NoDup (map fst ix) ->
    let ix' := fold_left (fun x k => del pair_eqb (k, id) x) keys ix in
    NoDup (map fst ix') /\ (forall e, In e ix' <-> In e ix /\ ~ (snd (fst e) = id /\ In (fst (fst e)) keys)).
  Proof.
    induction keys as [|k keys IH]; intros ix N; cbn [fold_left]; [cbv zeta; split; auto; intros e; split; [intros I; split; auto; intros (_ & [])|tauto]|].
    destruct (IH (del pair_eqb (k, id) ix) (del_nodup _ pair_eqb_spec _ _ N)) as (N' & I1). cbv zeta. split; auto. intros e. rewrite I1, (del_In _ pair_eqb_spec).
    destruct e as ((k', id'), t). cbn [fst snd]. split.
    - intros ((I & NE) & H). split; auto. intros (-> & [->|J]); [congruence|]. apply H. auto.
    - intros (I & H). split; [split; auto; intros [= -> ->]; apply H; split; auto; now left|]. intros (-> & J). apply H. split; auto. now right.
  Qed.

  Lemma del_length {V} id (l : list (addr * V)) : (length (del addr_eqb id l) <= length l)%nat.
  Proof. unfold del. induction l as [|e l IH]; cbn; auto. destruct (negb _); cbn; lia. Qed.
  Lemma pool_erase_ok U id p : ids_ok U -> pool_ok U p -> pool_ok U (pool_erase memo_key id p).
  Proof.
    intros IDS OK. pose proof OK as [H1 HS H2 H3 H4 H5 H6]. unfold pool_erase. destruct (lfind addr_eqb id (pl_txs p)) as [e|] eqn:F; auto.
    apply (find_In _ addr_eqb_spec) in F. destruct (H2 id e F) as (ID & IL & SN & RN & FB). rewrite ID.
    destruct (del_all id (index_keys (pe_tx e)) (pl_index p) H4) as (N' & I1).
    assert (ONE : forall e', In (id, e') (pl_txs p) -> e' = e) by (intros e' I; eapply nodup_same; eauto).
    constructor; cbn [pl_txs pl_fees pl_index].
    - now apply (del_nodup _ addr_eqb_spec).
    - pose proof (del_length id (pl_txs p)). lia.
    - intros id' e' I. apply (del_In _ addr_eqb_spec) in I as (I & _). auto.
    - intros a. pose proof (ok_bound U p a OK) as B. unfold recorded, entries in *. cbn [pl_txs pl_fees]. specialize (H3 a) as HA. rewrite (fees_del a id _ e H1 F) in HA, B.
      destruct (t_sender (pe_tx e)) as [s|] eqn:SE; [|congruence]. unfold from in HA, B. rewrite SE in HA, B. destruct (addr_eqb_spec s a) as [->|NE].
      + destruct (lfind addr_eqb a (pl_fees p)) as [v|] eqn:E.
        * cbv zeta. rewrite HA, N.add_comm, sub64_ok by lia. destruct (N.eqb_spec (fees_from a (map snd (del addr_eqb id (pl_txs p)))) 0) as [Z|Z].
          -- rewrite (find_del _ addr_eqb_spec), addr_eqb_refl. lia.
          -- rewrite (find_put _ addr_eqb_spec), addr_eqb_refl. reflexivity.
        * rewrite E. lia.
      + rewrite N.add_0_l in HA. rewrite <- HA. destruct (lfind addr_eqb s (pl_fees p)) as [v|]; auto. cbv zeta.
        destruct (sub64 v (pe_fee e) =? 0); [rewrite (find_del _ addr_eqb_spec)|rewrite (find_put _ addr_eqb_spec)]; destruct (addr_eqb_spec a s); congruence.
    - exact N'.
    - intros k id' t I. apply I1 in I as (I & NK). cbn [fst snd] in NK. destruct (H5 k id' t I) as (A & B & R & e' & IE & IK). split; auto. split; auto. split; auto.
      exists e'. split; auto. apply (del_In _ addr_eqb_spec). split; auto. cbn [fst]. intros ->. apply NK. split; auto. now rewrite <- (ONE e' IE).
    - intros id' e' k I IK. apply (del_In _ addr_eqb_spec) in I as (I & NE). cbn [fst] in NE. destruct (H6 id' e' k I IK) as (t & IT). exists t. apply I1. split; auto.
      cbn [fst snd]. intros (Q & _). congruence.
  Qed.
  (** the sum without an earlier version of a transaction *)
  Definition others (id a : addr) (p : pool) : N := fees_from a (map snd (del addr_eqb id (pl_txs p))).
  Lemma update_total U e p s : pool_ok U p -> ids_ok U -> U (pe_tx e) -> t_sender (pe_tx e) = Some s -> pe_fee e < M32 -> others (t_id (pe_tx e)) s p + pe_fee e < M64 ->
    (match lfind addr_eqb (t_id (pe_tx e)) (pl_txs p) with Some o => sub64 (recorded p s) (pe_fee o) | None => recorded p s end + pe_fee e) mod M64 = others (t_id (pe_tx e)) s p + pe_fee e.
  Proof.
    intros OK IDS UE SE FE B. rewrite (po_fees _ _ OK). unfold others in *. destruct (lfind addr_eqb (t_id (pe_tx e)) (pl_txs p)) as [o|] eqn:F.
    - apply (find_In _ addr_eqb_spec) in F. destruct (po_entry _ _ OK _ _ F) as (ID & UO & _ & _ & FO). destruct (IDS (pe_tx o) (pe_tx e) UO UE ID) as (SO & _).
      pose proof (ok_bound U p s OK) as BB. unfold entries in *. rewrite (fees_del s _ _ o (po_nodup _ _ OK) F) in *. unfold from in *. rewrite SO, SE, addr_eqb_refl in *.
      rewrite N.add_comm with (n := pe_fee o), sub64_ok by lia. now apply N.mod_small.
    - rewrite del_out in * by (apply (find_none _ addr_eqb_spec); auto). now apply N.mod_small.
  Qed.
  Lemma pool_update_ok U e force balance p p' b : ids_ok U -> pool_ok U p -> op_ok U (PUpdate e force balance) -> pool_update memo_key e force balance p = Some (p', b) ->
    N.of_nat (length (pl_txs p')) <= M32 -> pool_ok U p' /\ forall s, b = true -> t_sender (pe_tx e) = Some s -> recorded p' s = others (t_id (pe_tx e)) s p + pe_fee e.
  Proof.
    intros IDS OK (UE & RE & FE) E SM. pose proof OK as [H1 HS H2 H3 H4 H5 H6]. unfold pool_update in E. destruct (pe_skipped e); [discriminate|].
    destruct (t_sender (pe_tx e)) as [s|] eqn:SE; [|injection E as <- <-; split; auto; discriminate]. cbv zeta in E. fold (recorded p s) in E. fold M64 in E.
    set (tot := (match lfind addr_eqb (t_id (pe_tx e)) (pl_txs p) with Some o => sub64 (recorded p s) (pe_fee o) | None => recorded p s end + pe_fee e) mod M64) in *.
    destruct (negb force && (balance <? tot)) eqn:C; [injection E as <- <-; split; auto; discriminate|]. injection E as <- <-. cbn [pl_txs] in SM.
    assert (FB : fees_from s (map snd (put addr_eqb (t_id (pe_tx e)) e (pl_txs p))) < M64).
    { apply fees_small; [|rewrite map_length; exact SM]. intros x I. apply in_map_iff in I as ((id, x') & <- & [I|I]); [injection I as _ <-; exact FE|].
      apply (del_In _ addr_eqb_spec) in I as (I & _). cbn [snd]. destruct (H2 _ _ I) as (_ & _ & _ & _ & R). exact R. }
    unfold put in FB. cbn [map snd] in FB. rewrite fees_cons in FB. unfold from in FB. rewrite SE, addr_eqb_refl in FB.
    assert (TOT : tot = others (t_id (pe_tx e)) s p + pe_fee e) by (apply (update_total U); auto; unfold others; lia).
    assert (SUM : forall a, fees_from a (map snd (put addr_eqb (t_id (pe_tx e)) e (pl_txs p))) = if addr_eqb a s then tot else fees_from a (entries p)).
    { intros a. unfold put. cbn [map snd]. rewrite fees_cons. unfold from. rewrite SE. destruct (addr_eqb_spec s a) as [<-|NE].
      - rewrite addr_eqb_refl, TOT. unfold others. lia.
      - destruct (addr_eqb_spec a s); [congruence|]. rewrite N.add_0_l. destruct (lfind addr_eqb (t_id (pe_tx e)) (pl_txs p)) as [o|] eqn:F.
        + apply (find_In _ addr_eqb_spec) in F. destruct (H2 _ _ F) as (ID & UO & _ & _ & FO). destruct (IDS (pe_tx o) (pe_tx e) UO UE ID) as (SO & _).
          unfold entries. rewrite (fees_del a _ _ o H1 F). unfold from. rewrite SO, SE. destruct (addr_eqb_spec s a); [congruence|]. lia.
        + now rewrite del_out by (apply (find_none _ addr_eqb_spec); auto). }
    assert (REC : forall a, recorded (mk_pool (put addr_eqb (t_id (pe_tx e)) e (pl_txs p)) (put addr_eqb s tot (pl_fees p))
      (match lfind addr_eqb (t_id (pe_tx e)) (pl_txs p) with Some _ => pl_index p | None => fold_left (fun x k => emplace pair_eqb (k, t_id (pe_tx e)) (pe_tx e) x) (index_keys (pe_tx e)) (pl_index p) end)) a
      = if addr_eqb a s then tot else recorded p a).
    { intros a. unfold recorded. cbn [pl_fees]. rewrite (find_put _ addr_eqb_spec). now destruct (addr_eqb a s). }
    split; [|intros s' _ [= <-]; rewrite REC, addr_eqb_refl; exact TOT].
    constructor; cbn [pl_txs pl_fees pl_index].
    - now apply (put_nodup _ addr_eqb_spec).
    - exact SM.
    - intros id x [I|I]; [injection I as <- <-; split; auto; split; auto; split; [congruence|auto]|]. apply (del_In _ addr_eqb_spec) in I as (I & _). auto.
    - intros a. rewrite REC. unfold entries. cbn [pl_txs]. rewrite SUM. destruct (addr_eqb a s); auto.
    - destruct (lfind addr_eqb (t_id (pe_tx e)) (pl_txs p)); auto. now destruct (emplace_all (pe_tx e) (index_keys (pe_tx e)) (pl_index p) H4).
    - intros k id t I. destruct (lfind addr_eqb (t_id (pe_tx e)) (pl_txs p)) as [o|] eqn:F.
      + apply (find_In _ addr_eqb_spec) in F. destruct (H5 k id t I) as (A & B & R & e' & IE & IK). split; auto. split; auto. split; auto. destruct (addr_eqb_spec id (t_id (pe_tx e))) as [->|NE].
        * exists e. split; [now left|]. replace e' with o in * by (eapply nodup_same; eauto). destruct (H2 _ _ F) as (ID & UO & _ & RO & _).
          rewrite <- (keys_same (pe_tx o) (pe_tx e)); auto. exact (IDS _ _ UO UE ID).
        * exists e'. split; auto. right. apply (del_In _ addr_eqb_spec). split; auto.
      + destruct (emplace_all (pe_tx e) (index_keys (pe_tx e)) (pl_index p) H4) as (_ & I1 & _ & _). destruct (I1 _ I) as [J|(k' & J & EQ)].
        * destruct (H5 k id t J) as (A & B & R & e' & IE & IK). split; auto. split; auto. split; auto. exists e'. split; auto. right. apply (del_In _ addr_eqb_spec). split; auto. cbn [fst].
          intros ->. eapply (find_none _ addr_eqb_spec); eauto.
        * injection EQ as <- -> ->. split; auto. split; auto. split; auto. exists e. split; auto. now left.
    - intros id x k [I|I] IK.
      + injection I as <- <-. destruct (lfind addr_eqb (t_id (pe_tx e)) (pl_txs p)) as [o|] eqn:F.
        * apply (find_In _ addr_eqb_spec) in F. destruct (H2 _ _ F) as (ID & UO & _ & RO & _). rewrite <- (keys_same (pe_tx o) (pe_tx e)) in IK; auto; [eapply H6; eauto|exact (IDS _ _ UO UE ID)].
        * destruct (emplace_all (pe_tx e) (index_keys (pe_tx e)) (pl_index p) H4) as (_ & _ & _ & I3). auto.
      + apply (del_In _ addr_eqb_spec) in I as (I & _). destruct (H6 id x k I IK) as (t & IT). exists t.
        destruct (lfind addr_eqb (t_id (pe_tx e)) (pl_txs p)); auto. destruct (emplace_all (pe_tx e) (index_keys (pe_tx e)) (pl_index p) H4) as (_ & _ & I2 & _). auto.
  Qed.
  Theorem reached_ok U p : ids_ok U -> reached memo_key U p -> pool_ok U p.
  Proof.
    intros IDS. induction 1 as [|o p R IH OK SM].
    - constructor; cbn; try (constructor); try (intros; contradiction); auto; [vm_compute; discriminate].
    - destruct o as [e force balance|id]; cbn [pool_do] in *; [|now apply pool_erase_ok].
      destruct (pool_update memo_key e force balance p) as [(p', b)|] eqn:E; auto. eapply pool_update_ok; eauto.
  Qed.
End POOL.
(** ** Purging *)
Require Import Permutation.
Section PURGE.
  Variable memo_key : addr -> bytes -> addr.
  Variables (size : tx -> N) (balance : addr -> N) (max_size : N).
  Lemma del_perm id e (l : list (addr * entry)) : NoDup (map fst l) -> In (id, e) l -> Permutation (map snd l) (e :: map snd (del addr_eqb id l)).
  Proof.
    induction l as [|(x, u) l IH]; intros N I; [destruct I|]. cbn [map fst] in N. inversion N as [|? ? NI ND]; subst. cbn [del filter fst map snd]. destruct (addr_eqb_spec id x) as [->|NE]; cbn [negb].
    - destruct I as [E|I]; [injection E as ->|destruct NI; now apply (in_map fst) in I]. fold (del addr_eqb x l). rewrite del_out; auto. intros v J. apply NI. now apply (in_map fst) in J.
    - destruct I as [E|I]; [congruence|]. cbn [map snd]. fold (del addr_eqb id l). rewrite (IH ND I). apply perm_swap.
  Qed.
  Definition sizes (l : list entry) : N := fold_right (fun e s => size (pe_tx e) + s) 0 l.
  Lemma sizes_perm l l' : Permutation l l' -> sizes l = sizes l'.
  Proof. induction 1; cbn; unfold sizes in *; lia. Qed.
  Lemma fees_perm a l l' : Permutation l l' -> fees_from a l = fees_from a l'.
  Proof. induction 1; rewrite ?fees_cons; try (cbn; lia); congruence. Qed.
  Lemma purge_ok U l : ids_ok U -> forall total fees ratio p p' r K, pool_ok memo_key U p -> Permutation (entries p) (K ++ l) ->
    sizes K <= max_size -> sizes K <= total -> (forall a, fees_from a K <= balance a) -> (forall a, fees_from a K <= fees a) ->
    purge memo_key size balance max_size l total fees ratio p = (p', r) ->
    pool_ok memo_key U p' /\ sizes (entries p') <= max_size /\ (forall a, fees_from a (entries p') <= balance a) /\ incl (entries p') (entries p).
  Proof.
    intros IDS. induction l as [|e l IH]; intros total fees ratio p p' r K OK PM S1 S2 F1 F2 E; cbn [purge] in E.
    - injection E as <- <-. rewrite app_nil_r in PM. split; auto. rewrite (sizes_perm _ _ PM). split; auto. split; [intros a; now rewrite (fees_perm a _ _ PM)|apply incl_refl].
    - cbv zeta in E. set (fees' := match t_sender (pe_tx e) with Some s => fun a => if addr_eqb a s then fees s + pe_fee e else fees a | None => fees end) in *.
      assert (IE : exists id, In (id, e) (pl_txs p)).
      { assert (I : In e (entries p)) by (rewrite PM; apply in_elt). unfold entries in I. apply in_map_iff in I as ((id, x) & <- & I). eauto. }
      destruct IE as (id & IE). destruct (po_entry _ _ _ OK id e IE) as (ID & UE & SN & _). destruct (t_sender (pe_tx e)) as [s|] eqn:SE; [|congruence].
      assert (F2' : forall a, fees_from a K <= fees' a) by (intros a; unfold fees'; specialize (F2 a); destruct (addr_eqb_spec a s) as [->|]; lia).
      set (over := balance s mod 2 ^ 64 <? fees' s) in *. set (total' := if over then total else total + size (pe_tx e)) in *.
      destruct ((max_size <? total') || over) eqn:C.
      + assert (PM' : Permutation (entries (pool_erase memo_key (t_id (pe_tx e)) p)) (K ++ l)).
        { rewrite ID. unfold pool_erase. destruct (lfind addr_eqb id (pl_txs p)) as [e'|] eqn:F; [|exfalso; eapply (find_none _ addr_eqb_spec); eauto].
          apply (find_In _ addr_eqb_spec) in F. replace e' with e in * by (eapply nodup_same; eauto using po_nodup). unfold entries in *. cbn [pl_txs].
          rewrite (del_perm id e _ (po_nodup _ _ _ OK) IE) in PM. now apply Permutation_cons_app_inv in PM. }
        destruct (IH total' fees' ratio _ p' r K (pool_erase_ok memo_key U _ p IDS OK) PM' S1 ltac:(unfold total'; destruct over; lia) F1 F2' E) as (A & B & D & I).
        split; auto. split; auto. split; auto. intros x X. apply I in X. rewrite PM. rewrite PM' in X. rewrite in_app_iff in *. cbn. tauto.
      + apply orb_false_iff in C as (C1 & C2). apply N.ltb_ge in C1. assert (TOT : total' = total + size (pe_tx e)) by (unfold total'; now rewrite C2).
        assert (FS : fees' s <= balance s).
        { unfold over in C2. apply N.ltb_ge in C2. assert (balance s mod 2 ^ 64 <= balance s) by (apply N.mod_le; discriminate). lia. }
        assert (SUMF : forall a, fees_from a (K ++ [e]) = fees_from a K + if addr_eqb s a then pe_fee e else 0).
        { intros a. rewrite (fees_perm a _ (e :: K)) by (symmetry; apply Permutation_cons_append). rewrite fees_cons. unfold from. rewrite SE. destruct (addr_eqb s a); lia. }
        assert (SUMS : sizes (K ++ [e]) = sizes K + size (pe_tx e)).
        { rewrite (sizes_perm _ (e :: K)) by (symmetry; apply Permutation_cons_append). cbn. unfold sizes. lia. }
        apply (IH total' fees' (t_ratio (pe_tx e)) p p' r (K ++ [e])); auto.
        * now rewrite <- app_assoc.
        * rewrite SUMS. lia.
        * rewrite SUMS. lia.
        * intros a. rewrite SUMF. destruct (addr_eqb_spec s a) as [<-|]; [|specialize (F1 a); lia]. specialize (F2 s). unfold fees' in FS. rewrite addr_eqb_refl in FS. lia.
        * intros a. rewrite SUMF. unfold fees'. specialize (F2 a). destruct (addr_eqb_spec s a) as [<-|]; [rewrite addr_eqb_refl; lia|]. destruct (addr_eqb_spec a s); [congruence|lia].
  Qed.
  (** nothing is removed while everything fits *)
  Lemma purge_none l : forall total fees ratio p, total + sizes l <= max_size -> (forall a, fees a + fees_from a l <= balance a mod 2 ^ 64) ->
    fst (purge memo_key size balance max_size l total fees ratio p) = p.
  Proof.
    induction l as [|e l IH]; intros total fees ratio p S F; cbn [purge]; auto. cbv zeta.
    set (fees' := match t_sender (pe_tx e) with Some s => fun a => if addr_eqb a s then fees s + pe_fee e else fees a | None => fees end) in *.
    assert (F' : forall a, fees' a + fees_from a l <= balance a mod 2 ^ 64).
    { intros a. specialize (F a). rewrite fees_cons in F. unfold fees', from in *. destruct (t_sender (pe_tx e)) as [s|]; [|lia].
      destruct (addr_eqb_spec a s) as [->|NE]; [rewrite addr_eqb_refl in F; lia|]. destruct (addr_eqb_spec s a); [congruence|lia]. }
    assert (OV : match t_sender (pe_tx e) with Some s => balance s mod 2 ^ 64 <? fees' s | None => false end = false).
    { destruct (t_sender (pe_tx e)) as [s|]; auto. apply N.ltb_ge. specialize (F' s). lia. }
    rewrite OV. cbn [sizes fold_right] in S. fold (sizes l) in S. destruct (N.ltb_spec max_size (total + size (pe_tx e))); [lia|]. cbn [orb]. apply IH; auto. lia.
  Qed.
End PURGE.
