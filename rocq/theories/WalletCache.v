(** Proofs about what the wallet remembers as spent. *)
Require Import List Arith NArith Bool Lia Permutation.
From Verif Require Import WalletModel WalletSpec WalletProofs.
Import ListNotations.
Open Scope N_scope.

Definition psum (p : list (N * list (key * N))) (f : N -> bool) (k : key) : N := sum (map (fun x => bal (snd x) k) (filter (fun x => f (fst x)) p)).
Definition osum (own : N -> bool) (out : list sent) (f : N -> bool) (k : key) : N := sum (map (fun s => commits own s k) (filter (fun s => f (s_id s)) out)).

Lemma psum_cons x p f k : psum (x :: p) f k = (if f (fst x) then bal (snd x) k else 0) + psum p f k.
Proof. unfold psum. cbn [filter]. destruct (f (fst x)); [apply sum_cons | reflexivity]. Qed.
Lemma osum_cons own s out f k : osum own (s :: out) f k = (if f (s_id s) then commits own s k else 0) + osum own out f k.
Proof. unfold osum. cbn [filter]. destruct (f (s_id s)); [apply sum_cons | reflexivity]. Qed.
Lemma filter_and {A} (f g : A -> bool) l : filter f (filter g l) = filter (fun x => g x && f x) l.
Proof. induction l as [|x l IH]; [reflexivity|]. cbn. destruct (g x); cbn; [destruct (f x)|]; rewrite ?IH; reflexivity. Qed.
Lemma psum_filter p f g k : psum (filter (fun x => g (fst x)) p) f k = psum p (fun i => g i && f i) k.
Proof. unfold psum. rewrite filter_and. reflexivity. Qed.

Lemma psum_replace p id m' f k : forall m, get N.eqb p id = Some m ->
  psum (replace N.eqb p id m') f k + (if f id then bal m k else 0) = psum p f k + (if f id then bal m' k else 0).
Proof.
  induction p as [|[i v] p IH]; intros m E; cbn in E; [discriminate|]. cbn [replace]. destruct (N.eqb_spec i id) as [->|Hne].
  - injection E as ->. rewrite !psum_cons. cbn [fst snd]. destruct (f id); lia.
  - rewrite !psum_cons. cbn [fst snd]. specialize (IH m E). destruct (f i); lia.
Qed.
Lemma psum_insert p id m' f k : psum (insert N.ltb p id m') f k = psum p f k + (if f id then bal m' k else 0).
Proof.
  unfold psum. assert (HP := insert_perm N.ltb p id m').
  assert (HF : Permutation (filter (fun x => f (fst x)) (insert N.ltb p id m')) (filter (fun x => f (fst x)) ((id, m') :: p))).
  { clear k. induction HP as [|x l l' HP IH|x y l|l l' l'' HP1 IH1 HP2 IH2]; cbn.
    - constructor.
    - destruct (f (fst x)); [constructor; exact IH | exact IH].
    - destruct (f (fst x)), (f (fst y)); try constructor; reflexivity.
    - etransitivity; eassumption. }
  rewrite (sum_perm _ _ (Permutation_map _ HF)). cbn [filter fst]. destruct (f id); cbn [map snd]; rewrite ?sum_cons; lia.
Qed.
Definition entry (p : list (N * list (key * N))) (id : N) : list (key * N) := match get N.eqb p id with Some m => m | None => [] end.
Lemma pend_entry p id k v id' : entry (pend p id k v) id' = if id =? id' then setb (entry p id) k (add128 (bal (entry p id) k) v) else entry p id'.
Proof. unfold entry, pend. cbv zeta. rewrite get_put by apply N.eqb_spec. destruct (N.eqb_spec id id') as [->|_]; reflexivity. Qed.
Lemma pend_psum p id k v f k' : bal (entry p id) k + v < M ->
  psum (pend p id k v) f k' = psum p f k' + (if f id then (if key_eqb k k' then v else 0) else 0).
Proof.
  intros Hs. unfold pend. cbv zeta. fold (entry p id). rewrite (add_small _ _ Hs). unfold put. unfold entry in *.
  destruct (get N.eqb p id) as [m|] eqn:E.
  - pose proof (psum_replace p id (setb m k (bal m k + v)) f k' m E) as H. rewrite bal_set in H. destruct (f id); [|lia].
    revert H. destruct (key_eqb_spec k k') as [Ek|_]; [rewrite <- Ek|]; lia.
  - rewrite psum_insert, bal_set, !bal_nil. destruct (f id); [|lia]. destruct (key_eqb k k'); lia.
Qed.

(** clamped subtractions *)
Lemma clamped_bal m k v k' : bal (clamped_sub m k v) k' = bal m k' - (if key_eqb k k' then v else 0).
Proof. unfold clamped_sub. rewrite bal_set. destruct (key_eqb_spec k k') as [->|_]; lia. Qed.
Lemma clamped_fold l : forall m k, bal (fold_left (fun b x => clamped_sub b (fst x) (snd x)) l m) k = bal m k - sum (map snd (filter (fun x => key_eqb (fst x) k) l)).
Proof.
  induction l as [|[k0 v] l IH]; intros m k; cbn [fold_left]; [cbn; lia|]. rewrite IH, clamped_bal. cbn [filter fst].
  destruct (key_eqb k0 k); cbn [map snd]; rewrite ?sum_cons; lia.
Qed.
Lemma sum_nodup l k : NoDup (map fst l) -> sum (map snd (filter (fun x : key * N => key_eqb (fst x) k) l)) = bal l k.
Proof.
  induction l as [|[k0 v] l IH]; intros Hn; [reflexivity|]. inversion Hn as [|x l' Hx Hn']; subst. unfold bal, at0. cbn [filter fst get].
  destruct (key_eqb_spec k0 k) as [->|_].
  - cbn [map snd]. rewrite sum_cons, (IH Hn'). unfold bal, at0. rewrite (proj2 (get_none key_eqb key_ltb key_eqb_spec l k) Hx). lia.
  - rewrite (IH Hn'). reflexivity.
Qed.
Lemma clamped_pending p : forall m k, Forall (fun x => NoDup (map fst (snd x))) p ->
  bal (fold_left (fun b q => fold_left (fun b x => clamped_sub b (fst x) (snd x)) (snd q) b) p m) k = bal m k - psum p (fun _ => true) k.
Proof.
  induction p as [|[i q] p IH]; intros m k HF; cbn [fold_left]; [cbn; lia|]. inversion HF as [|x l H1 H2]; subst. cbn [snd] in *.
  rewrite (IH _ _ H2), clamped_fold, (sum_nodup q k H1), psum_cons. cbn [snd]. lia.
Qed.
Lemma setb_nodup m k v : NoDup (map fst m) -> NoDup (map fst (setb m k v)).
Proof. apply put_nodup, key_eqb_spec. Qed.
Lemma fold_nodup {A} (f : list (key * N) -> A -> list (key * N)) (l : list A) : (forall m x, NoDup (map fst m) -> NoDup (map fst (f m x))) ->
  forall m, NoDup (map fst m) -> NoDup (map fst (fold_left f l m)).
Proof. intros Hf. induction l as [|x l IH]; intros m H; [exact H | cbn; apply IH, Hf, H]. Qed.
Lemma set_small m k v : Forall (fun x => snd x < M) m -> v < M -> Forall (fun x : key * N => snd x < M) (setb m k v).
Proof.
  intros HF Hv. unfold setb, put. destruct (get key_eqb m k).
  - induction HF as [|[k0 v0] m H HF IH]; [constructor|]. cbn. destruct (key_eqb k0 k); constructor; auto.
  - apply (Permutation_Forall (Permutation_sym (insert_perm key_ltb m k v))). constructor; [exact Hv | exact HF].
Qed.
Lemma bal_small m k : Forall (fun x : key * N => snd x < M) m -> bal m k < M.
Proof.
  intros HF. unfold bal, at0. destruct (get key_eqb m k) as [v|] eqn:E; [|apply M_pos]. apply (get_in _ key_eqb_spec) in E. rewrite Forall_forall in HF. apply (HF _ E).
Qed.
Lemma clamped_ok m k v : balances_ok m -> balances_ok (clamped_sub m k v).
Proof.
  intros [H1 H2]. split; [apply setb_nodup, H1|]. apply set_small; [exact H2|]. change (2^128) with M in *. pose proof (bal_small m k H2). lia.
Qed.
Lemma fold_clamped_ok l : forall m, balances_ok m -> balances_ok (fold_left (fun b x => clamped_sub b (fst x) (snd x)) l m).
Proof. induction l as [|x l IH]; intros m H; [exact H | cbn; apply IH, clamped_ok, H]. Qed.

Section C.
  Variable own : N -> bool.
  Record inv (w : cache) (rep : list (key * N)) (out : list sent) : Prop := mk_inv {
    inv_bal : forall k, bal (c_balance w) k = bal rep k - committed own out k;
    inv_map : balances_ok (c_balance w);
    inv_res : c_reserved w = [];
    inv_tx : Permutation (c_pending_tx w) (map (fun s => (s_id s, s_expires s)) out);
    inv_ids : NoDup (map s_id out);
    inv_sum : forall f k, psum (c_pending w) f k = osum own out f k;
    inv_keys : Forall (fun x => NoDup (map fst (snd x))) (c_pending w);
    inv_none : forall id, ~ In id (map s_id out) -> get N.eqb (c_pending w) id = None }.

  Lemma committed_osum out k : committed own out k = osum own out (fun _ => true) k.
  Proof. unfold committed, osum. f_equal. f_equal. induction out as [|s out IH]; [reflexivity | cbn; rewrite <- IH; reflexivity]. Qed.
  Lemma balances_nil : balances_ok [].
  Proof. split; constructor. Qed.
  Lemma inv_reset : inv reset_cache [] [].
  Proof. constructor; try reflexivity; try (intros; reflexivity); try constructor; constructor. Qed.

  Lemma perm_filter {A} (f : A -> bool) l m : Permutation l m -> Permutation (filter f l) (filter f m).
  Proof.
    induction 1 as [|x l l' HP IH|x y l|l l' l'' HP1 IH1 HP2 IH2]; cbn.
    - constructor.
    - destruct (f x); [constructor|]; exact IH.
    - destruct (f x), (f y); try constructor; reflexivity.
    - etransitivity; eassumption.
  Qed.
  Lemma existsb_perm {A} (f : A -> bool) l m : Permutation l m -> existsb f l = existsb f m.
  Proof.
    intros H. destruct (existsb f l) eqn:E1, (existsb f m) eqn:E2; try reflexivity.
    - apply existsb_exists in E1. destruct E1 as (x & Hx & Hf). assert (existsb f m = true) by (apply existsb_exists; exists x; split; [apply (Permutation_in _ H Hx) | exact Hf]). congruence.
    - apply existsb_exists in E2. destruct E2 as (x & Hx & Hf).
      assert (existsb f l = true) by (apply existsb_exists; exists x; split; [apply (Permutation_in _ (Permutation_sym H) Hx) | exact Hf]). congruence.
  Qed.

  Definition gone (out : list sent) (history : list N) (height : N) (id : N) : bool :=
    existsb (fun s => (s_id s =? id) && (s_expires s <? height)) out || existsb (N.eqb id) history.
  Lemma gone_of out history height s : NoDup (map s_id out) -> In s out ->
    negb (gone out history height (s_id s)) = negb (existsb (N.eqb (s_id s)) history) && (height <=? s_expires s).
  Proof.
    intros Hn Hs. unfold gone. rewrite negb_orb, andb_comm. f_equal.
    destruct (height <=? s_expires s) eqn:E.
    - apply N.leb_le in E. destruct (existsb _ out) eqn:Ex; [|reflexivity]. apply existsb_exists in Ex. destruct Ex as (s' & Hs' & H).
      apply andb_true_iff in H. destruct H as [H1 H2]. apply N.eqb_eq in H1. apply N.ltb_lt in H2.
      assert (s' = s); [|subst; lia]. clear -Hn Hs Hs' H1. induction out as [|x out IH]; [contradiction|]. inversion Hn as [|y l Hx Hn']; subst.
      destruct Hs as [->|Hs], Hs' as [->|Hs']; [reflexivity | | |auto].
      + exfalso. apply Hx. rewrite <- H1. apply in_map, Hs'.
      + exfalso. apply Hx. rewrite H1. apply in_map, Hs.
    - apply N.leb_gt in E. assert (existsb (fun s0 => (s_id s0 =? s_id s) && (s_expires s0 <? height)) out = true) as ->; [|reflexivity].
      apply existsb_exists. exists s. split; [exact Hs|]. rewrite N.eqb_refl. apply N.ltb_lt, E.
  Qed.
  Lemma filter_gone out history height : NoDup (map s_id out) ->
    filter (fun s => negb (gone out history height (s_id s))) out = filter (fun s => negb (existsb (N.eqb (s_id s)) history) && (height <=? s_expires s)) out.
  Proof. intros Hn. apply filter_ext_in. intros s Hs. apply gone_of; assumption. Qed.

  Lemma inv_update b h n w rep out : inv w rep out -> balances_ok b ->
    inv (update_cache b h n w) b (filter (fun s => negb (existsb (N.eqb (s_id s)) h) && (n <=? s_expires s)) out).
  Proof.
    intros I Hb. rewrite <- (filter_gone out h n (inv_ids _ _ _ I)).
    assert (Hg : forall id, existsb (fun x : N * N => (fst x =? id) && (snd x <? n)) (c_pending_tx w) || existsb (N.eqb id) h = gone out h n id).
    { intros id. unfold gone. f_equal. rewrite (existsb_perm _ _ _ (inv_tx _ _ _ I)). clear. induction out as [|s out IH]; [reflexivity | cbn; rewrite IH; reflexivity]. }
    assert (HP : forall A (l : list (N * A)), filter (fun x => negb (existsb (fun x0 : N * N => (fst x0 =? fst x) && (snd x0 <? n)) (c_pending_tx w) || existsb (N.eqb (fst x)) h)) l
                 = filter (fun x => negb (gone out h n (fst x))) l) by (intros A l; apply filter_ext; intros x; rewrite Hg; reflexivity).
    unfold update_cache. cbv zeta. rewrite !HP, (inv_res _ _ _ I). cbn [fold_left].
    set (g := fun id => negb (gone out h n id)).
    change (filter (fun x => negb (gone out h n (fst x))) (c_pending w)) with (filter (fun x => g (fst x)) (c_pending w)).
    assert (HK : Forall (fun x => NoDup (map fst (snd x))) (filter (fun x => g (fst x)) (c_pending w))).
    { pose proof (inv_keys _ _ _ I) as HF. rewrite Forall_forall in *. intros x Hx. apply filter_In in Hx. apply HF, Hx. }
    assert (HO : forall f k, osum own (filter (fun s => g (s_id s)) out) f k = osum own out (fun i => g i && f i) k) by (intros f k; unfold osum; rewrite filter_and; reflexivity).
    constructor; cbn [c_balance c_reserved c_pending_tx c_pending].
    - intros k. rewrite (clamped_pending _ _ _ HK), psum_filter, (inv_sum _ _ _ I), committed_osum. fold g.
      change (fun s => negb (gone out h n (s_id s))) with (fun s => g (s_id s)). rewrite HO. reflexivity.
    - clear -Hb. induction (filter (fun x => g (fst x)) (c_pending w)) as [|x l IH] in b, Hb |- *; [exact Hb | cbn; apply IH, fold_clamped_ok, Hb].
    - reflexivity.
    - etransitivity; [apply perm_filter, (inv_tx _ _ _ I)|]. clear. induction out as [|s out' IH] at 2 4; [constructor|]. cbn. destruct (negb (gone out h n (s_id s))); cbn; [constructor|]; exact IH.
    - pose proof (inv_ids _ _ _ I) as Hn. change (fun s => negb (gone out h n (s_id s))) with (fun s => g (s_id s)). clearbody g. clear -Hn.
      induction out as [|s out IH]; [constructor|]. inversion Hn as [|x l Hx Hn']; subst. cbn. destruct (g (s_id s)); [|apply IH, Hn']. cbn. constructor; [|apply IH, Hn'].
      intros H. apply Hx. apply in_map_iff in H. destruct H as (y & Hy & H). apply filter_In in H. apply in_map_iff. exists y. tauto.
    - intros f k. rewrite psum_filter, (inv_sum _ _ _ I). change (fun s => negb (gone out h n (s_id s))) with (fun s => g (s_id s)). rewrite HO. reflexivity.
    - exact HK.
    - intros id Hid. apply (get_none N.eqb N.ltb N.eqb_spec). intros Hin. apply in_map_iff in Hin. destruct Hin as ([i m] & Hi & Hin). cbn in Hi. subst i.
      apply filter_In in Hin. destruct Hin as [Hin Hgid]. cbn in Hgid.
      destruct (in_dec N.eq_dec id (map s_id out)) as [Ho|Ho].
      + apply Hid. apply in_map_iff in Ho. destruct Ho as (s & <- & Ho). apply in_map, filter_In. split; [exact Ho | exact Hgid].
      + pose proof (inv_none _ _ _ I id Ho) as E. apply (get_none N.eqb N.ltb N.eqb_spec) in E. apply E. apply (in_map fst) in Hin. exact Hin.
  Qed.

  (** one more amount for a transaction *)
  Definition step (id : N) (bp : list (key * N) * list (N * list (key * N))) (k : key) (v : N) := (clamped_sub (fst bp) k v, pend (snd bp) id k v).
  (** the state while a transaction is marked: [acc k]: what it took so far *)
  Record mid (w : cache) (id : N) (bp : list (key * N) * list (N * list (key * N))) (acc : key -> N) : Prop := mk_mid {
    mid_bal : forall k, bal (fst bp) k = bal (c_balance w) k - acc k;
    mid_map : balances_ok (fst bp);
    mid_sum : forall f k, psum (snd bp) f k = psum (c_pending w) f k + (if f id then acc k else 0);
    mid_entry : forall k, bal (entry (snd bp) id) k = acc k;
    mid_other : forall id', id' <> id -> get N.eqb (snd bp) id' = get N.eqb (c_pending w) id';
    mid_keys : Forall (fun x => NoDup (map fst (snd x))) (snd bp) }.
  Lemma put_forall (P : list (key * N) -> Prop) p id m : Forall (fun x => P (snd x)) p -> P m -> Forall (fun x : N * list (key * N) => P (snd x)) (put N.eqb N.ltb p id m).
  Proof.
    intros HF Hm. unfold put. destruct (get N.eqb p id).
    - induction HF as [|[i q] p H HF IH]; [constructor|]. cbn. destruct (i =? id); constructor; auto.
    - apply (Permutation_Forall (Permutation_sym (insert_perm N.ltb p id m))). constructor; assumption.
  Qed.
  Lemma entry_nodup p id : Forall (fun x => NoDup (map fst (snd x))) p -> NoDup (map fst (entry p id)).
  Proof.
    intros HF. unfold entry. destruct (get N.eqb p id) as [m|] eqn:E; [|constructor]. apply (get_in _ N.eqb_spec) in E. rewrite Forall_forall in HF. apply (HF _ E).
  Qed.
  Lemma mid_step w id bp acc k v : mid w id bp acc -> acc k + v < M ->
    mid w id (step id bp k v) (fun k' => acc k' + (if key_eqb k k' then v else 0)).
  Proof.
    intros Hm Hv. assert (Hs : bal (entry (snd bp) id) k + v < M) by (rewrite (mid_entry _ _ _ _ Hm); exact Hv).
    constructor; cbn [step fst snd].
    - intros k'. rewrite clamped_bal, (mid_bal _ _ _ _ Hm). lia.
    - apply clamped_ok, (mid_map _ _ _ _ Hm).
    - intros f k'. rewrite (pend_psum _ _ _ _ _ _ Hs), (mid_sum _ _ _ _ Hm). destruct (f id); lia.
    - intros k'. rewrite pend_entry, N.eqb_refl, bal_set, (add_small _ _ Hs), !(mid_entry _ _ _ _ Hm). destruct (key_eqb_spec k k') as [->|_]; lia.
    - intros id' Hne. unfold pend. cbv zeta. rewrite get_put by apply N.eqb_spec. destruct (N.eqb_spec id id') as [E|_]; [congruence|]. apply (mid_other _ _ _ _ Hm), Hne.
    - unfold pend. cbv zeta. apply (put_forall (fun m => NoDup (map fst m))); [apply (mid_keys _ _ _ _ Hm)|]. apply setb_nodup.
      apply entry_nodup, (mid_keys _ _ _ _ Hm).
  Qed.
  Definition mark_in (id : N) (bp : list (key * N) * list (N * list (key * N))) (i : txin) :=
    if own (i_address i) then step id bp (i_address i, i_contract i) (i_amount i) else bp.
  Lemma mid_inputs w id ins : forall bp acc, mid w id bp acc -> (forall k, acc k + (if own (fst k) then taken ins k else 0) < M) ->
    exists acc', mid w id (fold_left (mark_in id) ins bp) acc' /\ forall k, acc' k = acc k + (if own (fst k) then taken ins k else 0).
  Proof.
    induction ins as [|i ins IH]; intros bp acc Hm Hs; cbn [fold_left].
    - exists acc. split; [exact Hm|]. intros k. unfold taken. cbn. destruct (own (fst k)); lia.
    - unfold mark_in at 2. set (k0 := (i_address i, i_contract i)). destruct (own (i_address i)) eqn:Eo.
      + assert (H1 : acc k0 + i_amount i < M).
        { specialize (Hs k0). unfold k0 in Hs at 2. cbn [fst] in Hs. rewrite Eo, taken_cons in Hs. fold k0 in Hs. rewrite key_eqb_refl in Hs. lia. }
        destruct (IH _ _ (mid_step w id bp acc k0 (i_amount i) Hm H1)) as (acc' & Hm' & Ha).
        * intros k. specialize (Hs k). rewrite taken_cons in Hs. fold k0 in Hs. destruct (key_eqb_spec k0 k) as [Ek|_].
          -- subst k. unfold k0 in Hs |- *. cbn [fst] in *. rewrite Eo in *. lia.
          -- destruct (own (fst k)); lia.
        * exists acc'. split; [exact Hm'|]. intros k. rewrite Ha, taken_cons. fold k0. destruct (key_eqb_spec k0 k) as [Ek|_].
          -- subst k. unfold k0. cbn [fst]. rewrite Eo. lia.
          -- destruct (own (fst k)); lia.
      + destruct (IH bp acc Hm) as (acc' & Hm' & Ha).
        * intros k. specialize (Hs k). rewrite taken_cons in Hs. destruct (own (fst k)); lia.
        * exists acc'. split; [exact Hm'|]. intros k. rewrite Ha, taken_cons. destruct (own (fst k)) eqn:Ek; [|reflexivity].
          fold k0. destruct (key_eqb_spec k0 k) as [E|_]; [|lia]. rewrite <- E in Ek. unfold k0 in Ek. cbn [fst] in Ek. congruence.
  Qed.
  Lemma inv_mark id x f t w rep out : inv w rep out -> (forall k, commits own (mk_sent id x (match f with Some v => v | None => 0 end) t) k < M) ->
    inv (update_from own id x f t w) rep
        (if existsb (fun s => s_id s =? id) out then out
         else match t_sender t, f with Some _, None => out | _, _ => mk_sent id x (match f with Some v => v | None => 0 end) t :: out end).
  Proof.
    intros I Hs. set (s := mk_sent id x (match f with Some v => v | None => 0 end) t) in *. unfold update_from.
    assert (Hfst : map fst (map (fun s => (s_id s, s_expires s)) out) = map s_id out) by (rewrite map_map; reflexivity).
    destruct (existsb (fun s => s_id s =? id) out) eqn:Ex.
    - assert (get N.eqb (c_pending_tx w) id <> None) as Hg.
      { intros E. apply (get_none N.eqb N.ltb N.eqb_spec) in E. apply E. apply (Permutation_in (l := map s_id out)).
        - rewrite <- Hfst. apply Permutation_map, Permutation_sym, (inv_tx _ _ _ I).
        - apply existsb_exists in Ex. destruct Ex as (y & Hy & E'). apply N.eqb_eq in E'. subst id. apply in_map, Hy. }
      destruct (get N.eqb (c_pending_tx w) id); [exact I | congruence].
    - assert (Hid : ~ In id (map s_id out)).
      { intros Hin. apply in_map_iff in Hin. destruct Hin as (y & E & Hy). assert (existsb (fun s => s_id s =? id) out = true); [|congruence].
        apply existsb_exists. exists y. split; [exact Hy | apply N.eqb_eq, E]. }
      assert (Hg : get N.eqb (c_pending_tx w) id = None).
      { apply (get_none N.eqb N.ltb N.eqb_spec). intros Hin. apply Hid. rewrite <- Hfst. apply (Permutation_in _ (Permutation_map fst (inv_tx _ _ _ I))), Hin. }
      rewrite Hg.
      assert (Hstart : mid w id (c_balance w, c_pending w) (fun _ => 0)).
      { constructor; cbn [fst snd].
        - intros k. lia.
        - apply (inv_map _ _ _ I).
        - intros g k. destruct (g id); lia.
        - intros k. unfold entry. rewrite (inv_none _ _ _ I id Hid). reflexivity.
        - reflexivity.
        - apply (inv_keys _ _ _ I). }
      assert (HE : match t_sender t, f with
                   | Some _, None => True
                   | _, _ => inv (let '(b, p) := match t_sender t, f with
                                     | Some a, Some v => (clamped_sub (c_balance w) (a, 0) v, pend (c_pending w) id (a, 0) v)
                                     | _, _ => (c_balance w, c_pending w)
                                     end in
                                  let '(b0, p0) := fold_left (mark_in id) (t_inputs t) (b, p) in
                                  mk_cache b0 (c_reserved w) (put N.eqb N.ltb (c_pending_tx w) id x) p0) rep (s :: out)
                   end).
      { assert (HM : exists bp acc, mid w id bp acc /\
                       match t_sender t, f with
                       | Some a, Some v => (clamped_sub (c_balance w) (a, 0) v, pend (c_pending w) id (a, 0) v)
                       | _, _ => (c_balance w, c_pending w)
                       end = bp /\
                       (match t_sender t, f with Some _, None => False | _, _ => True end ->
                        forall k, acc k = match t_sender t with Some a => if key_eqb (a, 0) k then s_fee s else 0 | None => 0 end)).
        { destruct (t_sender t) as [a|] eqn:Et; [destruct f as [v|] |].
          - eexists _, _. split; [apply (mid_step w id _ _ (a, 0) v Hstart)|].
            + specialize (Hs (a, 0)). unfold commits in Hs. cbn [s_tx s_fee s] in Hs. rewrite Et, key_eqb_refl in Hs. lia.
            + split; [reflexivity|]. intros _ k. cbn [s_fee s]. destruct (key_eqb (a, 0) k); reflexivity.
          - exists (c_balance w, c_pending w), (fun _ => 0). split; [exact Hstart|]. split; [reflexivity|]. contradiction.
          - exists (c_balance w, c_pending w), (fun _ => 0). split; [exact Hstart|]. split; [reflexivity|]. reflexivity. }
        destruct HM as (bp & acc & Hm & Ebp & Hacc). rewrite Ebp.
        assert (HG : match t_sender t, f with Some _, None => False | _, _ => True end ->
          inv (let '(b, p) := bp in let '(b0, p0) := fold_left (mark_in id) (t_inputs t) (b, p) in mk_cache b0 (c_reserved w) (put N.eqb N.ltb (c_pending_tx w) id x) p0) rep (s :: out)).
        { intros Hcase. specialize (Hacc Hcase). destruct bp as [b p].
          destruct (mid_inputs w id (t_inputs t) (b, p) acc Hm) as (acc' & Hm' & Ha').
          { intros k. specialize (Hs k). unfold commits in Hs. cbn [s_tx s] in Hs. rewrite Hacc. cbn [s_tx s] in *. fold s in Hs. lia. }
          destruct (fold_left (mark_in id) (t_inputs t) (b, p)) as [b0 p0]. cbn [fst snd] in *.
          assert (Hc : forall k, acc' k = commits own s k) by (intros k; rewrite Ha', Hacc; unfold commits; cbn [s_tx s]; lia).
          constructor; cbn [c_balance c_reserved c_pending_tx c_pending].
          - intros k. pose proof (mid_bal _ _ _ _ Hm' k) as H1. cbn [fst] in H1. rewrite H1, (inv_bal _ _ _ I), Hc. unfold committed. cbn [map]. rewrite sum_cons. lia.
          - apply (mid_map _ _ _ _ Hm').
          - apply (inv_res _ _ _ I).
          - unfold put. rewrite Hg. etransitivity; [apply insert_perm|]. cbn [map]. constructor. apply (inv_tx _ _ _ I).
          - cbn [map]. constructor; [exact Hid | apply (inv_ids _ _ _ I)].
          - intros g k. pose proof (mid_sum _ _ _ _ Hm' g k) as H1. cbn [snd] in H1. rewrite H1, (inv_sum _ _ _ I), osum_cons, Hc. cbn [s_id s]. lia.
          - apply (mid_keys _ _ _ _ Hm').
          - intros id' Hn. cbn [map] in Hn. pose proof (mid_other _ _ _ _ Hm' id') as H1. cbn [snd] in H1. rewrite H1; [apply (inv_none _ _ _ I)|]; intros E; apply Hn; [right; exact E | left; symmetry; exact E]. }
        destruct (t_sender t); [destruct f|]; [apply (HG Logic.I) | exact Logic.I | apply (HG Logic.I)]. }
      unfold mark_in, step in HE. destruct (t_sender t) as [a|]; [destruct f as [v|]|]; [exact HE | exact I | exact HE].
  Qed.
End C.
