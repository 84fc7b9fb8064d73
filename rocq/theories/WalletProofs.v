(** Proofs about the inputs that the wallet chooses. *)
Require Import List Arith NArith Bool Lia Permutation.
From Verif Require Import WalletModel WalletSpec.
Import ListNotations.
Open Scope N_scope.

Lemma key_eqb_spec a b : reflect (a = b) (key_eqb a b).
Proof.
  destruct a as [a1 a2], b as [b1 b2]. unfold key_eqb. cbn [fst snd].
  destruct (N.eqb_spec a1 b1) as [->|H]; [|constructor; congruence]. destruct (N.eqb_spec a2 b2) as [->|H]; constructor; congruence.
Qed.
Lemma key_eqb_refl k : key_eqb k k = true.
Proof. destruct (key_eqb_spec k k); congruence. Qed.

(** maps *)
Section MAP.
  Context {K : Type}.
  Variables (eqb ltb : K -> K -> bool).
  Hypothesis eqb_spec : forall a b, reflect (a = b) (eqb a b).
  Lemma get_in {V} (m : list (K * V)) k v : get eqb m k = Some v -> In (k, v) m.
  Proof. induction m as [|[k' v'] m IH]; cbn; [discriminate|]. destruct (eqb_spec k' k) as [->|_]; [injection 1 as ->; left; reflexivity | right; auto]. Qed.
  Lemma get_none {V} (m : list (K * V)) k : get eqb m k = None <-> ~ In k (map fst m).
  Proof.
    induction m as [|[k' v'] m IH]; cbn; [tauto|]. destruct (eqb_spec k' k) as [->|H]; [split; [discriminate | tauto] |].
    rewrite IH. split; [intros H1 [H2|H2]; congruence || tauto | tauto].
  Qed.
  Lemma get_nodup {V} (m : list (K * V)) k v : NoDup (map fst m) -> In (k, v) m -> get eqb m k = Some v.
  Proof.
    induction m as [|[k' v'] m IH]; cbn; [contradiction|]. intros Hn H. inversion Hn as [|x l Hx Hn']; subst.
    destruct (eqb_spec k' k) as [->|Hk].
    - destruct H as [H|H]; [congruence|]. exfalso. apply Hx. apply (in_map fst) in H. exact H.
    - destruct H as [H|H]; [congruence | auto].
  Qed.
  Lemma replace_fst {V} (m : list (K * V)) k v : map fst (replace eqb m k v) = map fst m.
  Proof. induction m as [|[k' v'] m IH]; [reflexivity|]. cbn. destruct (eqb k' k); cbn; [reflexivity | rewrite IH; reflexivity]. Qed.
  Lemma insert_perm {V} (m : list (K * V)) k v : Permutation (insert ltb m k v) ((k, v) :: m).
  Proof.
    induction m as [|[k' v'] m IH]; [constructor; constructor|]. cbn. destruct (ltb k k'); [reflexivity|].
    rewrite IH. apply perm_swap.
  Qed.
  Lemma put_nodup {V} (m : list (K * V)) k v : NoDup (map fst m) -> NoDup (map fst (put eqb ltb m k v)).
  Proof.
    intros H. unfold put. destruct (get eqb m k) eqn:E; [rewrite replace_fst; exact H|].
    apply get_none in E. apply (Permutation_NoDup (l := k :: map fst m)); [|constructor; assumption].
    symmetry. apply (Permutation_map fst (insert_perm m k v)).
  Qed.
  Lemma put_fst {V} (m : list (K * V)) k v k' : In k' (map fst (put eqb ltb m k v)) <-> k' = k \/ In k' (map fst m).
  Proof.
    unfold put. destruct (get eqb m k) eqn:E.
    - rewrite replace_fst. split; [auto | intros [->|H]; [|exact H]]. apply get_in, (in_map fst) in E. exact E.
    - split; intros H.
      + apply (Permutation_in _ (Permutation_map fst (insert_perm m k v))) in H. destruct H as [H|H]; [left; symmetry; exact H | right; exact H].
      + apply (Permutation_in _ (Permutation_sym (Permutation_map fst (insert_perm m k v)))). destruct H as [->|H]; [left; reflexivity | right; exact H].
  Qed.
  Lemma get_replace {V} (m : list (K * V)) k v k' : get eqb m k <> None -> get eqb (replace eqb m k v) k' = if eqb k k' then Some v else get eqb m k'.
  Proof.
    induction m as [|[k0 v0] m IH]; cbn; [congruence|]. destruct (eqb_spec k0 k) as [->|Hk]; cbn.
    - intros _. destruct (eqb_spec k k'); reflexivity.
    - intros H. rewrite (IH H). destruct (eqb_spec k0 k') as [->|_]; [|reflexivity]. destruct (eqb_spec k k'); congruence.
  Qed.
  Lemma get_insert {V} (m : list (K * V)) k v k' : get eqb m k = None -> get eqb (insert ltb m k v) k' = if eqb k k' then Some v else get eqb m k'.
  Proof.
    induction m as [|[k0 v0] m IH]; cbn; [reflexivity|]. destruct (eqb_spec k0 k) as [->|Hk]; [discriminate|]. intros H.
    destruct (ltb k k0); cbn; [reflexivity|]. rewrite (IH H). destruct (eqb_spec k0 k') as [->|_]; [|reflexivity]. destruct (eqb_spec k k'); congruence.
  Qed.
  Lemma get_put {V} (m : list (K * V)) k v k' : get eqb (put eqb ltb m k v) k' = if eqb k k' then Some v else get eqb m k'.
  Proof. unfold put. destruct (get eqb m k) eqn:E; [apply get_replace; congruence | apply get_insert, E]. Qed.
  Lemma at_put (m : list (K * N)) k v k' : at0 eqb (put eqb ltb m k v) k' = if eqb k k' then v else at0 eqb m k'.
  Proof. unfold at0. rewrite get_put. destruct (eqb k k'); reflexivity. Qed.
End MAP.
Lemma bal_set m k v k' : bal (setb m k v) k' = if key_eqb k k' then v else bal m k'.
Proof. apply at_put, key_eqb_spec. Qed.
Lemma bal_nil k : bal [] k = 0.
Proof. reflexivity. Qed.

(** 128 bit numbers *)
Definition M : N := 2^128.
Lemma add_small x y : x + y < M -> add128 x y = x + y.
Proof. unfold add128. change (2^128) with M. intros H. apply N.mod_small, H. Qed.
Lemma sub_small x y : x < M -> y <= x -> sub128 x y = x - y.
Proof.
  unfold sub128. change (2^128) with M. intros H1 H2. replace (x + M - y) with ((x - y) + 1 * M) by lia.
  rewrite N.mod_add by (unfold M; discriminate). apply N.mod_small. lia.
Qed.
Lemma M_pos : 0 < M.
Proof. reflexivity. Qed.
Global Opaque M.

Lemma sum_app l m : sum (l ++ m) = sum l + sum m.
Proof. induction l as [|x l IH]; cbn; [reflexivity|]. unfold sum in *. rewrite IH. apply N.add_assoc. Qed.
Lemma sum_cons x l : sum (x :: l) = x + sum l.
Proof. reflexivity. Qed.
Lemma sum_perm l m : Permutation l m -> sum l = sum m.
Proof. induction 1; cbn; unfold sum in *; cbn; lia. Qed.
Lemma taken_cons i l k : taken (i :: l) k = (if key_eqb (i_address i, i_contract i) k then i_amount i else 0) + taken l k.
Proof. unfold taken, key_eqb. cbn [filter fst snd]. destruct ((i_address i =? fst k) && (i_contract i =? snd k)); cbn [map]; [apply sum_cons | reflexivity]. Qed.
Lemma total_cons i l c : in_total (i :: l) c = (if i_contract i =? c then i_amount i else 0) + in_total l c.
Proof. unfold in_total. cbn [filter]. destruct (i_contract i =? c); cbn [map]; [apply sum_cons | reflexivity]. Qed.
Lemma taken_app l m k : taken (l ++ m) k = taken l k + taken m k.
Proof. unfold taken. rewrite filter_app, map_app. apply sum_app. Qed.
Lemma total_app l m c : in_total (l ++ m) c = in_total l c + in_total m c.
Proof. unfold in_total. rewrite filter_app, map_app. apply sum_app. Qed.
Lemma sumc_cons x l c : total (x :: l) c = (if fst x =? c then snd x else 0) + total l c.
Proof. unfold total. cbn [filter]. destruct (fst x =? c); cbn [map]; [apply sum_cons | reflexivity]. Qed.

Section W.
  Variables (own : N -> bool) (arrange : list (N * N) -> list (N * N)).
  Hypothesis Harr : forall l, Permutation (arrange l) l.
  Variable bm : list (key * N).
  Hypothesis Hbm : balances_ok bm.

  Lemma bm_small k b : get key_eqb bm k = Some b -> b < M.
  Proof. intros H. apply (get_in _ key_eqb_spec) in H. destruct Hbm as [_ HF]. rewrite Forall_forall in HF. apply (HF _ H). Qed.
  (** never more spent than there is *)
  Definition covered (spent : list (key * N)) : Prop := forall k, bal spent k <= bal bm k.
  Lemma covered_none spent k : covered spent -> get key_eqb bm k = None -> bal spent k = 0.
  Proof. intros H E. specialize (H k). unfold bal at 2, at0 in H. rewrite E in H. lia. Qed.
  Lemma rest_of spent k b : covered spent -> get key_eqb bm k = Some b ->
    match get key_eqb spent k with Some s => sub128 b s | None => b end = b - bal spent k /\ bal spent k <= b.
  Proof.
    intros H E. pose proof (H k) as Hk. unfold bal, at0 in *. rewrite E in Hk. destruct (get key_eqb spent k) as [s|].
    - split; [apply sub_small; [apply (bm_small k), E | exact Hk] | exact Hk].
    - split; lia.
  Qed.

  (** what is there for a currency *)
  Definition avail (m : list (key * N)) (spent : list (key * N)) (c : N) : N :=
    sum (map (fun x => snd x - bal spent (fst x)) (filter (fun x => snd (fst x) =? c) m)).
  Lemma avail_same m spent spent' c : (forall a, In (a, c) (map fst m) -> bal spent' (a, c) = bal spent (a, c)) -> avail m spent' c = avail m spent c.
  Proof.
    unfold avail. induction m as [|[[a c'] b] m IH]; intros H; [reflexivity|]. cbn [filter fst snd].
    destruct (N.eqb_spec c' c) as [->|Hc].
    - cbn [map fst snd]. rewrite !sum_cons. rewrite IH by (intros x Hx; apply H; right; exact Hx). rewrite (H a) by (left; reflexivity). reflexivity.
    - apply IH. intros x Hx. apply H. right. exact Hx.
  Qed.
  Lemma avail_put m spent a c v b : NoDup (map fst m) -> In ((a, c), b) m -> bal spent (a, c) <= v -> v <= b ->
    avail m (setb spent (a, c) v) c + (v - bal spent (a, c)) = avail m spent c.
  Proof.
    unfold avail. induction m as [|[[a' c'] b'] m IH]; intros Hn Hin H1 H2; [contradiction|]. cbn [map fst] in Hn. inversion Hn as [|x l Hx Hn']; subst.
    cbn [filter fst snd]. destruct (N.eqb_spec c' c) as [->|Hc].
    - cbn [map fst snd]. rewrite !sum_cons, bal_set. destruct (key_eqb_spec (a, c) (a', c)) as [E|E].
      + injection E as <-. assert (b' = b) as ->.
        { destruct Hin as [Hin|Hin]; [congruence|]. exfalso. apply Hx. apply (in_map fst) in Hin. exact Hin. }
        fold (avail m (setb spent (a, c) v) c). fold (avail m spent c). rewrite (avail_same m spent (setb spent (a, c) v) c); [lia|].
        intros x Hx'. rewrite bal_set. destruct (key_eqb_spec (a, c) (x, c)) as [E|E]; [|reflexivity]. injection E as <-. contradiction.
      + destruct Hin as [Hin|Hin]; [exfalso; congruence|]. specialize (IH Hn' Hin H1 H2). lia.
    - destruct Hin as [Hin|Hin]; [congruence|]. apply (IH Hn' Hin H1 H2).
  Qed.

  Definition keeps (i i' : txin) : Prop := i_address i' = i_address i /\ i_contract i' = i_contract i /\ i_amount i <= i_amount i'.
  Lemma keeps_refl i : keeps i i.
  Proof. unfold keeps. repeat split; lia. Qed.
  Lemma keeps_all l : Forall2 keeps l l.
  Proof. induction l; constructor; [apply keeps_refl | assumption]. Qed.

  (** a step of the bookkeeping: inputs and spent grow by the same *)
  Definition moves (ins spent ins' spent' : _) : Prop := forall k, taken ins' k + bal spent k = taken ins k + bal spent' k.

  Lemma reuse_ok c ins : forall spent left ins' spent' left',
    reuse own bm c ins spent left = (ins', spent', left') -> covered spent -> in_total ins c + left < M ->
    covered spent' /\ left' <= left /\ moves ins spent ins' spent' /\ in_total ins' c + left' = in_total ins c + left /\
    (forall c', c' <> c -> in_total ins' c' = in_total ins c') /\ Forall2 keeps ins ins' /\
    (forall a c', c' <> c -> bal spent' (a, c') = bal spent (a, c')) /\ avail bm spent' c + left = avail bm spent c + left'.
  Proof.
    induction ins as [|i ins IH]; intros spent left ins' spent' left' E Hc Hs; cbn [reuse] in E.
    - injection E as <- <- <-. unfold moves. repeat split; auto; try lia.
    - destruct (left =? 0) eqn:E0.
      + injection E as <- <- <-. unfold moves. split; [exact Hc|]. split; [lia|]. split; [reflexivity|]. split; [reflexivity|]. split; [reflexivity|]. split; [apply keeps_all|].
        split; [reflexivity | lia].
      + apply N.eqb_neq in E0.
        set (st := if (i_contract i =? c) && own (i_address i) then _ else _) in E.
        assert (HS : exists i1 s1 l1, st = (i1, s1, l1) /\ covered s1 /\ l1 <= left /\
                     (forall k, taken [i1] k + bal spent k = taken [i] k + bal s1 k) /\ keeps i i1 /\
                     (if i_contract i =? c then i_amount i1 + l1 = i_amount i + left else i_amount i1 = i_amount i /\ l1 = left) /\
                     (forall a c', c' <> c -> bal s1 (a, c') = bal spent (a, c')) /\ avail bm s1 c + left = avail bm spent c + l1).
        { assert (Hid : forall P : Prop, P -> exists i1 s1 l1, (i, spent, left) = (i1, s1, l1) /\ covered s1 /\ l1 <= left /\
                     (forall k, taken [i1] k + bal spent k = taken [i] k + bal s1 k) /\ keeps i i1 /\
                     (if i_contract i =? c then i_amount i1 + l1 = i_amount i + left else i_amount i1 = i_amount i /\ l1 = left) /\
                     (forall a c', c' <> c -> bal s1 (a, c') = bal spent (a, c')) /\ avail bm s1 c + left = avail bm spent c + l1).
          { intros P _. exists i, spent, left. split; [reflexivity|]. split; [exact Hc|]. split; [lia|]. split; [reflexivity|]. split; [apply keeps_refl|].
            split; [destruct (i_contract i =? c); auto|]. split; [reflexivity | lia]. }
          unfold st. destruct ((i_contract i =? c) && own (i_address i)) eqn:Ec; [|apply (Hid True I)].
          apply andb_true_iff in Ec. destruct Ec as [Ec Eo]. apply N.eqb_eq in Ec. set (k0 := (i_address i, i_contract i)).
          destruct (get key_eqb bm k0) as [b|] eqn:Eb; [|apply (Hid True I)].
          destruct (rest_of spent k0 b Hc Eb) as [-> Hle]. cbv zeta.
          pose proof (bm_small k0 b Eb) as Hb. set (am := if left <=? b - bal spent k0 then left else b - bal spent k0).
          assert (Ham : am <= left /\ am <= b - bal spent k0) by (unfold am; destruct (N.leb_spec left (b - bal spent k0)); lia).
          destruct (am =? 0) eqn:E1; [apply (Hid True I)|]. apply N.eqb_neq in E1.
          assert (Hi : i_amount i + am < M) by (rewrite total_cons, Ec, N.eqb_refl in Hs; lia).
          rewrite (add_small (i_amount i) am Hi), (add_small (bal spent k0) am) by lia. rewrite (sub_small left am) by lia.
          eexists _, _, _. split; [reflexivity|]. split; [|split; [lia|split; [|split; [|split; [|split]]]]].
          - intros k. rewrite bal_set. destruct (key_eqb_spec k0 k) as [<-|_]; [|apply Hc]. unfold bal at 2, at0. rewrite Eb. lia.
          - intros k. rewrite !taken_cons, bal_set. cbn [i_address i_contract i_amount]. fold k0. unfold taken. cbn. destruct (key_eqb_spec k0 k) as [<-|_]; lia.
          - unfold keeps. cbn. repeat split; lia.
          - rewrite Ec, N.eqb_refl. cbn. lia.
          - intros a c' Hne. rewrite bal_set. destruct (key_eqb_spec k0 (a, c')) as [E2|_]; [|reflexivity]. injection E2 as _ E2. congruence.
          - pose proof (avail_put bm spent (i_address i) c (bal spent k0 + am) b (proj1 Hbm)) as HA.
            assert (Hk0 : k0 = (i_address i, c)) by (unfold k0; rewrite Ec; reflexivity). rewrite Hk0 in *.
            specialize (HA (get_in _ key_eqb_spec _ _ _ Eb) ltac:(lia) ltac:(lia)). lia. }
        destruct HS as (i1 & s1 & l1 & E1 & Hc1 & Hl1 & Ht1 & Hk1 & Hi1 & Hs1 & Ha1). rewrite E1 in E.
        destruct (reuse own bm c ins s1 l1) as [[rest2 s2] l2] eqn:E2. injection E as <- <- <-.
        assert (Hs' : in_total ins c + l1 < M) by (rewrite total_cons in Hs; destruct (i_contract i =? c); lia).
        destruct (IH s1 l1 rest2 s2 l2 E2 Hc1 Hs') as (Hc2 & Hl2 & Hm2 & Ht2 & Ho2 & Hk2 & Hs2 & Ha2).
        destruct Hk1 as (Ka & Kc & Km).
        split; [exact Hc2|]. split; [lia|]. split; [|split; [|split; [|split; [|split]]]].
        * intros k. specialize (Ht1 k). specialize (Hm2 k). rewrite (taken_cons i1), (taken_cons i). rewrite !taken_cons in Ht1. unfold taken in Ht1 at 1 2. cbn in Ht1. lia.
        * rewrite !total_cons, Kc. destruct (i_contract i =? c); lia.
        * intros c' Hne. rewrite !total_cons, Kc, (Ho2 c' Hne). destruct (N.eqb_spec (i_contract i) c') as [E3|_]; [|reflexivity].
          rewrite E3 in Hi1. destruct (N.eqb_spec c' c) as [E4|_]; [congruence|]. lia.
        * constructor; [repeat split; assumption | exact Hk2].
        * intros a c' Hne. rewrite (Hs2 a c' Hne). apply Hs1, Hne.
        * lia.
  Qed.

  Lemma create_ok c l : forall spent left new spent' left',
    create c l spent left = (new, spent', left') -> covered spent -> left < M -> NoDup (map fst l) ->
    Forall (fun x => snd x <> 0 /\ bal bm (fst x, c) = bal spent (fst x, c) + snd x) l ->
    covered spent' /\ left' <= left /\ (forall k, taken new k + bal spent k = bal spent' k) /\ in_total new c + left' = left /\
    (forall c', c' <> c -> in_total new c' = 0) /\ (forall a c', c' <> c -> bal spent' (a, c') = bal spent (a, c')) /\ (left' <> 0 -> left = sum (map snd l) + left').
  Proof.
    induction l as [|[a b] l IH]; intros spent left new spent' left' E Hc Hl Hn HF; cbn [create] in E.
    - injection E as <- <- <-. unfold taken, in_total. cbn. repeat split; auto; lia.
    - destruct (left =? 0) eqn:E0.
      + apply N.eqb_eq in E0. injection E as <- <- <-. unfold taken, in_total. cbn. repeat split; auto; lia.
      + apply N.eqb_neq in E0. set (am := if left <? b then left else b) in E.
        assert (Ham : am <= left /\ am <= b /\ (am = b \/ am = left)) by (unfold am; destruct (N.ltb_spec left b); lia).
        inversion HF as [|x l' [Hb0 Hb] HF']; subst. cbn [fst snd] in *. inversion Hn as [|x l' Hx Hn']; subst.
        assert (HbM : bal bm (a, c) < M).
        { unfold bal, at0. destruct (get key_eqb bm (a, c)) eqn:Eg; [apply (bm_small _ _ Eg) | apply M_pos]. }
        rewrite (add_small (bal spent (a, c)) am) in E by lia. rewrite (sub_small left am) in E by lia.
        destruct (create c l (setb spent (a, c) (bal spent (a, c) + am)) (left - am)) as [[ins s2] l2] eqn:E2. injection E as <- <- <-.
        assert (Hc2 : covered (setb spent (a, c) (bal spent (a, c) + am))).
        { intros k. rewrite bal_set. destruct (key_eqb_spec (a, c) k) as [<-|_]; [lia | apply Hc]. }
        assert (HF2 : Forall (fun x => snd x <> 0 /\ bal bm (fst x, c) = bal (setb spent (a, c) (bal spent (a, c) + am)) (fst x, c) + snd x) l).
        { rewrite Forall_forall in *. intros [a' b'] Hin. destruct (HF' _ Hin) as [H1 H2]. cbn [fst snd] in *. split; [exact H1|]. rewrite bal_set.
          destruct (key_eqb_spec (a, c) (a', c)) as [E3|_]; [|exact H2]. injection E3 as <-. exfalso. apply Hx. apply (in_map fst) in Hin. exact Hin. }
        destruct (IH _ (left - am) ins s2 l2 E2 Hc2 ltac:(lia) Hn' HF2) as (Hc3 & Hl3 & Ht3 & Hi3 & Ho3 & Hs3 & Hr3).
        split; [exact Hc3|]. split; [lia|]. split; [|split; [|split; [|split]]].
        * intros k. specialize (Ht3 k). rewrite taken_cons. cbn [i_address i_contract i_amount]. rewrite bal_set in Ht3.
          revert Ht3. destruct (key_eqb_spec (a, c) k) as [Ek|_]; [rewrite <- Ek|]; lia.
        * rewrite total_cons. cbn [i_contract i_amount]. rewrite N.eqb_refl. lia.
        * intros c' Hne. rewrite total_cons. cbn [i_contract i_amount]. rewrite (Ho3 c' Hne). destruct (N.eqb_spec c c') as [->|_]; [congruence|reflexivity].
        * intros a' c' Hne. rewrite (Hs3 a' c' Hne), bal_set. destruct (key_eqb_spec (a, c) (a', c')) as [E3|_]; [congruence|reflexivity].
        * intros Hne. specialize (Hr3 Hne). cbn [map snd]. rewrite sum_cons. lia.
  Qed.

  Lemma addr_list_ok m spent c : (forall x, In x m -> In x bm) -> NoDup (map fst m) -> covered spent ->
    NoDup (map fst (addr_list m spent c)) /\ (forall a, In a (map fst (addr_list m spent c)) -> In (a, c) (map fst m)) /\
    Forall (fun x => snd x <> 0 /\ bal bm (fst x, c) = bal spent (fst x, c) + snd x) (addr_list m spent c) /\
    sum (map snd (addr_list m spent c)) = avail m spent c.
  Proof.
    induction m as [|[[a c'] b] m IH]; intros Hin Hn Hc; cbn [addr_list].
    - cbn. repeat split; [constructor | tauto | constructor].
    - inversion Hn as [|x l Hx Hn']; subst. destruct (IH (fun x H => Hin x (or_intror H)) Hn' Hc) as (H1 & H2 & H3 & H4). unfold avail. cbn [filter fst snd].
      destruct (N.eqb_spec c' c) as [->|Hne].
      + pose proof (get_nodup _ key_eqb_spec bm (a, c) b (proj1 Hbm) (Hin _ (or_introl eq_refl))) as Eb.
        destruct (rest_of spent (a, c) b Hc Eb) as [-> Hle]. cbv zeta. cbn [map fst snd]. rewrite sum_cons. fold (avail m spent c).
        destruct (N.eqb_spec (b - bal spent (a, c)) 0) as [E0|E0].
        * split; [exact H1|]. split; [intros x Hx'; right; apply H2, Hx'|]. split; [exact H3|]. rewrite H4, E0. reflexivity.
        * cbn [map fst snd]. split; [constructor; [intros Hx'; apply Hx, H2, Hx' | exact H1]|]. split; [intros x [<-|Hx']; [left; reflexivity | right; apply H2, Hx']|].
          split; [constructor; [|exact H3]|].
          -- cbn [fst snd]. split; [exact E0|]. unfold bal at 1, at0. rewrite Eb. lia.
          -- rewrite sum_cons, H4. reflexivity.
      + split; [exact H1|]. split; [intros x Hx'; right; apply H2, Hx'|]. split; [exact H3 | exact H4].
  Qed.

  Lemma gather_ok ins spent amount c : covered spent -> in_total ins c + amount < M ->
    match gather_inputs own arrange bm ins spent amount c with
    | Some (ins', spent') =>
      covered spent' /\ moves ins spent ins' spent' /\ in_total ins' c = in_total ins c + amount /\ (forall c', c' <> c -> in_total ins' c' = in_total ins c') /\
      grows ins ins' /\ (forall a c', c' <> c -> bal spent' (a, c') = bal spent (a, c'))
    | None => avail bm spent c < amount
    end.
  Proof.
    intros Hc Hs. unfold gather_inputs. destruct (reuse own bm c ins spent amount) as [[ins1 s1] l1] eqn:E1.
    destruct (reuse_ok c ins spent amount ins1 s1 l1 E1 Hc Hs) as (Hc1 & Hl1 & Hm1 & Ht1 & Ho1 & Hk1 & Hs1 & Ha1).
    destruct (addr_list_ok bm s1 c (fun x H => H) (proj1 Hbm) Hc1) as (A1 & _ & A3 & A4).
    destruct (create c (arrange (addr_list bm s1 c)) s1 l1) as [[new s2] l2] eqn:E2.
    assert (Hp := Harr (addr_list bm s1 c)).
    assert (A1' : NoDup (map fst (arrange (addr_list bm s1 c)))) by (apply (Permutation_NoDup (Permutation_map fst (Permutation_sym Hp))), A1).
    assert (A3' : Forall (fun x => snd x <> 0 /\ bal bm (fst x, c) = bal s1 (fst x, c) + snd x) (arrange (addr_list bm s1 c))) by (apply (Permutation_Forall (Permutation_sym Hp)), A3).
    destruct (create_ok c _ s1 l1 new s2 l2 E2 Hc1 ltac:(lia) A1' A3') as (Hc2 & Hl2 & Ht2 & Hi2 & Ho2 & Hs2 & Hr2).
    rewrite (sum_perm _ _ (Permutation_map snd Hp)), A4 in Hr2.
    destruct (N.eqb_spec l2 0) as [->|Hne].
    - split; [exact Hc2|]. split; [|split; [|split; [|split]]].
      + intros k. rewrite taken_app. specialize (Hm1 k). specialize (Ht2 k). lia.
      + rewrite total_app. lia.
      + intros c' Hne. rewrite total_app, (Ho1 c' Hne), (Ho2 c' Hne). lia.
      + exists ins1, new. split; [reflexivity | exact Hk1].
      + intros a c' Hne. rewrite (Hs2 a c' Hne). apply Hs1, Hne.
    - specialize (Hr2 Hne). lia.
  Qed.

  Lemma grows_refl ins : grows ins ins.
  Proof. exists ins, []. rewrite app_nil_r. split; [reflexivity | apply keeps_all]. Qed.
  Lemma keeps_trans a b c : Forall2 keeps a b -> Forall2 keeps b c -> Forall2 keeps a c.
  Proof.
    intros H. revert c. induction H as [|x y a b H1 H2 IH]; intros c Hc; inversion Hc as [|y' z b' c' H3 H4]; subst; constructor; [|apply IH, H4].
    unfold keeps in *. destruct H1 as (?&?&?), H3 as (?&?&?). repeat split; [congruence | congruence | lia].
  Qed.
  Lemma grows_trans a b c : grows a b -> grows b c -> grows a c.
  Proof.
    intros (o1 & n1 & -> & F1) (o2 & n2 & -> & F2). apply Forall2_app_inv_l in F2. destruct F2 as (p & q & Fp & Fq & ->).
    exists p, (q ++ n2). split; [rewrite app_assoc; reflexivity|]. exact (keeps_trans _ _ _ F1 Fp).
  Qed.

  (** all currencies; [m]: what is missing *)
  Lemma gather_all_ok m : forall ins spent, covered spent -> NoDup (map fst m) -> (forall c, in_total ins c + at0 N.eqb m c < M) ->
    match gather_all own arrange bm m ins spent with
    | Some (ins', spent') =>
      covered spent' /\ moves ins spent ins' spent' /\ (forall c, in_total ins' c = in_total ins c + at0 N.eqb m c) /\ grows ins ins'
    | None => exists c, avail bm spent c < at0 N.eqb m c
    end.
  Proof.
    induction m as [|[c v] m IH]; intros ins spent Hc Hn Hs; cbn [gather_all].
    - unfold moves. repeat split; auto; [intros c; unfold at0; cbn; lia | apply grows_refl].
    - inversion Hn as [|x l Hx Hn']; subst. cbn [fst] in Hx.
      assert (Hc0 : at0 N.eqb m c = 0) by (unfold at0; rewrite (proj2 (get_none N.eqb N.ltb N.eqb_spec m c) Hx); reflexivity).
      assert (Hat : forall c', at0 N.eqb ((c, v) :: m) c' = if c =? c' then v else at0 N.eqb m c') by (intros c'; unfold at0; cbn; destruct (c =? c'); reflexivity).
      destruct (N.eqb_spec v 0) as [->|Hv].
      + assert (Hsame : forall c', at0 N.eqb ((c, 0) :: m) c' = at0 N.eqb m c') by (intros c'; rewrite Hat; destruct (N.eqb_spec c c') as [Ecc|_]; [subst c'; rewrite Hc0; reflexivity | reflexivity]).
        specialize (IH ins spent Hc Hn' (fun c' => ltac:(rewrite <- Hsame; apply Hs))).
        destruct (gather_all own arrange bm m ins spent) as [[ins' spent']|].
        * destruct IH as (I1 & I2 & I3 & I4). repeat split; auto. intros c'. rewrite I3, Hsame. reflexivity.
        * destruct IH as (c' & Hc'). exists c'. rewrite Hsame. exact Hc'.
      + pose proof (gather_ok ins spent v c Hc ltac:(specialize (Hs c); rewrite Hat, N.eqb_refl in Hs; exact Hs)) as HG.
        destruct (gather_inputs own arrange bm ins spent v c) as [[ins1 s1]|].
        * destruct HG as (G1 & G2 & G3 & G4 & G5 & G6).
          assert (Hs1 : forall c', in_total ins1 c' + at0 N.eqb m c' < M).
          { intros c'. specialize (Hs c'). rewrite Hat in Hs. destruct (N.eqb_spec c c') as [Ecc|Hne]; [subst c'; rewrite G3, Hc0; lia | rewrite (G4 c') by congruence; exact Hs]. }
          specialize (IH ins1 s1 G1 Hn' Hs1). destruct (gather_all own arrange bm m ins1 s1) as [[ins' spent']|].
          -- destruct IH as (I1 & I2 & I3 & I4). split; [exact I1|]. split; [|split; [|exact (grows_trans _ _ _ G5 I4)]].
             ++ intros k. specialize (I2 k). specialize (G2 k). lia.
             ++ intros c'. rewrite I3, Hat. destruct (N.eqb_spec c c') as [Ecc|Hne]; [subst c'; rewrite G3, Hc0; lia | rewrite (G4 c') by congruence; reflexivity].
          -- destruct IH as (c' & Hc'). exists c'. rewrite Hat. destruct (N.eqb_spec c c') as [Ecc|Hne]; [subst c'; lia|].
             rewrite (avail_same bm spent s1 c') in Hc'; [exact Hc'|]. intros a _. apply G6. congruence.
        * exists c. rewrite Hat, N.eqb_refl. exact HG.
  Qed.

  Lemma pick_ok m spent : (forall x, In x m -> In x bm) -> covered spent -> forall best,
    bal spent (fst best, 0) + snd best <= bal bm (fst best, 0) ->
    bal spent (fst (pick_sender m spent best), 0) + snd (pick_sender m spent best) <= bal bm (fst (pick_sender m spent best), 0).
  Proof.
    induction m as [|[[a c] b] m IH]; intros Hin Hc best Hb; cbn [pick_sender]; [exact Hb|].
    destruct (N.eqb_spec c 0) as [->|_]; [|apply IH; [intros x Hx; apply Hin; right; exact Hx | exact Hc | exact Hb]].
    cbv zeta. apply IH; [intros x Hx; apply Hin; right; exact Hx | exact Hc|].
    pose proof (get_nodup _ key_eqb_spec bm (a, 0) b (proj1 Hbm) (Hin _ (or_introl eq_refl))) as Eb.
    destruct (rest_of spent (a, 0) b Hc Eb) as [-> Hle]. destruct (snd best <? b - bal spent (a, 0)); [|exact Hb].
    cbn [fst snd]. unfold bal at 3, at0. rewrite Eb. lia.
  Qed.
End W.

(** what is missing *)
Lemma addm_fold l : forall m, NoDup (map fst m) -> (forall c, at0 N.eqb m c + total l c < M) ->
  let m' := fold_left (fun m o => addm m (fst o) (snd o)) l m in
  NoDup (map fst m') /\ forall c, at0 N.eqb m' c = at0 N.eqb m c + total l c.
Proof.
  induction l as [|[c0 v] l IH]; intros m Hn Hs; cbn [fold_left].
  - split; [exact Hn|]. intros c. unfold total. cbn. lia.
  - assert (Hat : forall c, at0 N.eqb (addm m c0 v) c = at0 N.eqb m c + (if c0 =? c then v else 0)).
    { intros c. unfold addm. rewrite at_put by apply N.eqb_spec. destruct (N.eqb_spec c0 c) as [<-|_]; [|lia].
      apply add_small. specialize (Hs c0). rewrite sumc_cons in Hs. cbn [fst snd] in Hs. rewrite N.eqb_refl in Hs. lia. }
    destruct (IH (addm m c0 v)) as [H1 H2].
    + apply put_nodup; [apply N.eqb_spec | exact Hn].
    + intros c. rewrite Hat. specialize (Hs c). rewrite sumc_cons in Hs. cbn [fst snd] in Hs. lia.
    + split; [exact H1|]. intros c. rewrite H2, Hat, sumc_cons. cbn [fst snd]. lia.
Qed.
Lemma subm_fold l : forall m, NoDup (map fst m) -> (forall c, at0 N.eqb m c < M) ->
  let m' := fold_left (fun m i => let a := at0 N.eqb m (i_contract i) in
                                  put N.eqb N.ltb m (i_contract i) (if i_amount i <? a then sub128 a (i_amount i) else 0)) l m in
  NoDup (map fst m') /\ forall c, at0 N.eqb m' c = at0 N.eqb m c - in_total l c.
Proof.
  induction l as [|i l IH]; intros m Hn Hs; cbn [fold_left].
  - split; [exact Hn|]. intros c. unfold in_total. cbn. lia.
  - cbv zeta. set (m1 := put N.eqb N.ltb m (i_contract i) _).
    assert (Hat : forall c, at0 N.eqb m1 c = at0 N.eqb m c - (if i_contract i =? c then i_amount i else 0)).
    { intros c. unfold m1. rewrite at_put by apply N.eqb_spec. destruct (N.eqb_spec (i_contract i) c) as [<-|_]; [|lia].
      destruct (N.ltb_spec (i_amount i) (at0 N.eqb m (i_contract i))); [rewrite sub_small; [reflexivity | apply Hs | lia] | lia]. }
    destruct (IH m1) as [H1 H2].
    + apply put_nodup; [apply N.eqb_spec | exact Hn].
    + intros c. rewrite Hat. specialize (Hs c). lia.
    + split; [exact H1|]. intros c. rewrite H2, Hat, total_cons. lia.
Qed.
Lemma at_nil c : at0 N.eqb [] c = 0.
Proof. reflexivity. Qed.
Lemma missing_ok t dep : (forall c, N.max (in_total (t_inputs t) c) (need t c) + total dep c < M) ->
  NoDup (map fst (missing t dep)) /\ forall c, at0 N.eqb (missing t dep) c = (need t c - in_total (t_inputs t) c) + total dep c.
Proof.
  intros Hs. unfold missing. cbv zeta.
  destruct (addm_fold (t_outputs t) []) as [A1 A2]; [constructor | intros c; specialize (Hs c); unfold need in Hs; rewrite at_nil; lia|].
  destruct (addm_fold (t_deposits t) _ A1) as [B1 B2]; [intros c; rewrite A2; specialize (Hs c); unfold need in Hs; rewrite at_nil; lia|].
  destruct (subm_fold (t_inputs t) _ B1) as [C1 C2]; [intros c; rewrite B2, A2; specialize (Hs c); unfold need in Hs; rewrite at_nil; lia|].
  destruct (addm_fold dep _ C1) as [D1 D2]; [intros c; rewrite C2, B2, A2; specialize (Hs c); unfold need in Hs; rewrite at_nil; lia|].
  split; [exact D1|]. intros c. rewrite D2, C2, B2, A2. rewrite at_nil. unfold need. lia.
Qed.
Lemma avail_funds bm c : avail bm [] c = funds bm c.
Proof. unfold avail, funds. f_equal. apply map_ext. intros x. apply N.sub_0_r. Qed.
