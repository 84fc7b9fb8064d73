(** Proofs about accounts *)
Require Import List Arith NArith Bool Lia.
From Verif Require Import PrsModel PrsProofs FrmModel FrmProofs AccModel AccSpec.
Import ListNotations.
Open Scope N_scope.
Set Default Proof Using "Type".

Lemma len_set {A} i (x : A) l : length (set_nth i x l) = length l.
Proof. revert i. induction l as [|y l IH]; intros [|i]; cbn; congruence. Qed.
Lemma nth_set {A} i (x : A) l j : nth_error (set_nth i x l) j = if (i =? j)%nat then (if (i <? length l)%nat then Some x else None) else nth_error l j.
Proof.
  revert i j. induction l as [|y l IH]; intros i j.
  - cbn. destruct i; destruct (_ =? j)%nat; now destruct j.
  - destruct i as [|i], j as [|j]; try easy. cbn [set_nth nth_error]. rewrite IH. reflexivity.
Qed.
Lemma combine_snoc {A B} (a : list A) (b : list B) x y : length a = length b -> combine (a ++ [x]) (b ++ [y]) = combine a b ++ [(x, y)].
Proof. revert b. induction a as [|u a IH]; intros [|v b] H; try discriminate; [easy|]. cbn. f_equal. apply IH. now injection H. Qed.
Lemma slot_len i s : (length (wallets s) <= i)%nat -> slot i s = None.
Proof. intros H. unfold slot. now rewrite (proj2 (nth_error_None _ _) H). Qed.
Lemma same_refl c : same_account c c.
Proof. unfold same_account. tauto. Qed.
Lemma slot_set i x s j : (i < length (wallets s))%nat -> slot j (set_wallets (set_nth i x (wallets s)) s) = if (i =? j)%nat then x else slot j s.
Proof. intros H. unfold slot. cbn [set_wallets wallets]. rewrite nth_set. destruct (i =? j)%nat; [|easy]. now rewrite (proj2 (Nat.ltb_lt _ _) H). Qed.

Set Default Proof Using "All".
Section WALLET.
  Variables (fpr : N -> option N -> N) (path_of : N -> N) (max_keys : nat) (max_addrs num_addrs : N) (keys : list N).
  Notation add_account := (add_account fpr).
  Notation create_account := (create_account fpr max_keys max_addrs).
  Notation import_wallet := (import_wallet fpr path_of max_keys max_addrs num_addrs).
  Notation step := (step fpr path_of max_keys max_addrs num_addrs keys).
  Notation load := (load fpr max_keys num_addrs keys).

  Definition kept (s s' : st) : Prop := files s' = files s /\ accts s' = accts s /\ disk s' = disk s.
  Definition added (i : nat) (c : cfg) (p : option N) (s s' : st) (ok : bool) : Prop :=
    slot i s = None /\ length (wallets s') = max (length (wallets s)) (S i) /\ (forall j, j <> i -> slot j s' = slot j s) /\
    match get (c_key c) (files s) with
    | None => ok = false /\ slot i s' = None
    | Some (seed, _) => (exists c', slot i s' = Some (c', seed) /\ same_account c' c) /\ (c_pass c = false \/ p = None \/ c_fp c = fpr seed p \/ c_fp c = 0 -> ok = true)
    end.
  Lemma add_spec i c p s s' ok : add_account i c p s = (s', ok) -> kept s s' /\ ((s' = s /\ ok = false /\ slot i s <> None) \/ added i c p s s' ok).
  Proof.
    unfold AccModel.add_account.
    assert (G : forall t, files t = files s -> accts t = accts s -> disk t = disk s -> (i < length (wallets t))%nat -> length (wallets t) = max (length (wallets s)) (S i) -> (forall j, slot j t = slot j s) -> slot i s = None ->
      match get (c_key c) (files t) with
      | None => (t, false)
      | Some (seed, _) =>
        match c_pass c, p with
        | true, None => (set_wallets (set_nth i (Some (c, seed)) (wallets t)) t, true)
        | _, _ =>
          let c := if c_fp c =? 0 then set_fp (fpr seed p) c else c in
          (set_wallets (set_nth i (Some (c, seed)) (wallets t)) t, negb (c_pass c && negb (fpr seed p =? c_fp c)))
        end
      end = (s', ok) -> kept s s' /\ ((s' = s /\ ok = false /\ slot i s <> None) \/ added i c p s s' ok)).
    { intros t F A D L M J N. unfold added. rewrite F. destruct (get (c_key c) (files s)) as [[seed fp]|].
      - assert (H : forall c' b, same_account c' c -> (c_pass c = false \/ p = None \/ c_fp c = fpr seed p \/ c_fp c = 0 -> b = true) ->
          (set_wallets (set_nth i (Some (c', seed)) (wallets t)) t, b) = (s', ok) -> kept s s' /\ ((s' = s /\ ok = false /\ slot i s <> None) \/
          slot i s = None /\ length (wallets s') = max (length (wallets s)) (S i) /\ (forall j, j <> i -> slot j s' = slot j s) /\
          (exists c', slot i s' = Some (c', seed) /\ same_account c' c) /\ (c_pass c = false \/ p = None \/ c_fp c = fpr seed p \/ c_fp c = 0 -> ok = true))).
        { intros c' b SA B [= <- <-]. split; [now split|]. right. split; [easy|]. split; [cbn; now rewrite len_set|]. split.
          - intros j NE. rewrite slot_set by easy. rewrite (proj2 (Nat.eqb_neq i j)) by congruence. apply J.
          - split; [|exact B]. exists c'. split; [|easy]. rewrite slot_set by easy. now rewrite Nat.eqb_refl. }
        assert (SA : same_account (if c_fp c =? 0 then set_fp (fpr seed p) c else c) c).
        { destruct (N.eqb_spec (c_fp c) 0) as [E|E]; [|apply same_refl]. unfold same_account. cbn. tauto. }
        assert (SP : c_pass (if c_fp c =? 0 then set_fp (fpr seed p) c else c) = c_pass c) by (now destruct (c_fp c =? 0)).
        assert (SF : c_fp c = fpr seed p \/ c_fp c = 0 -> (fpr seed p =? c_fp (if c_fp c =? 0 then set_fp (fpr seed p) c else c)) = true).
        { destruct (N.eqb_spec (c_fp c) 0) as [E|E]; intros Q; [apply N.eqb_refl|]. destruct Q as [->|Q]; [apply N.eqb_refl|easy]. }
        destruct (c_pass c) eqn:CP, p as [p|]; cbn zeta; apply H; try easy; try apply same_refl; rewrite SP; try easy.
        intros [Q|[Q|Q]]; [easy|easy|]. now rewrite (SF Q).
      - intros [= <- <-]. split; [now split|]. right. split; [easy|]. split; [easy|]. split; [intros j _; apply J|]. split; [easy|]. now rewrite J. }
    destruct (Nat.leb_spec (length (wallets s)) i) as [L|L].
    - apply G; try easy; cbn [set_wallets wallets].
      + rewrite app_length, repeat_length. lia.
      + rewrite app_length, repeat_length. lia.
      + intros j. unfold slot. cbn [set_wallets wallets]. destruct (Nat.lt_ge_cases j (length (wallets s))) as [Q|Q].
        * now rewrite nth_error_app1.
        * rewrite nth_error_app2 by easy. rewrite (proj2 (nth_error_None (wallets s) j) Q). destruct (nth_error (repeat None _) _) as [x|] eqn:E; [|easy].
          apply nth_error_In, repeat_spec in E. now subst.
      + now apply slot_len.
    - destruct (slot i s) as [x|] eqn:E.
      + intros [= <- <-]. split; [now split|]. left. split; [easy|]. split; [easy|]. congruence.
      + apply G; try easy; lia.
  Qed.

  Lemma create_spec c p s s' ok : create_account c p s = (s', ok) -> files s' = files s /\
    ((s' = s /\ ok = false) \/ exists t, let i := max max_keys (length (wallets s)) in
       added i c p s t ok /\ kept s t /\ (if ok then s' = set_both (accts s ++ [c]) t else s' = t)).
  Proof.
    unfold AccModel.create_account. destruct (_ || _); [intros [= <- <-]; split; [easy|now left]|].
    destruct (add_account _ c p s) as [t b] eqn:E. apply add_spec in E. destruct E as [K [[E1 [E2 E3]]|E]].
    - exfalso. apply E3. apply slot_len. lia.
    - assert (F : files t = files s) by apply K. destruct b; intros [= <- <-]; (split; [exact F|]); right; exists t; (split; [exact E|]); (split; [exact K|]); [|easy].
      destruct K as [_ [-> _]]. reflexivity.
  Qed.
  (** an import either changes nothing but key files that are as good, or adds an account *)
  Lemma import_spec c kf p s s' ok : import_wallet c kf p s = (s', ok) ->
    keeps_keys s s' /\
    ((ok = false /\ wallets s' = wallets s /\ accts s' = accts s /\ disk s' = disk s) \/
     exists c' t, ok = true /\ c_hidden c' = c_hidden c /\ c_rest c' = c_rest c /\ (forall f, f <> c_key c' -> get f (files s') = get f (files s)) /\ get (c_key c') (files s') = Some kf /\ wallets t = wallets s /\ accts t = accts s /\ disk t = disk s /\
       create_account c' p t = (s', true)).
  Proof.
    unfold AccModel.import_wallet. assert (R : keeps_keys s s) by (intros f seed fp H; now exists fp).
    destruct (match snd kf with Some f => negb (f =? fpr (fst kf) p) | None => false end); [intros [= <- <-]; split; [easy|now left]|].
    set (c' := mk_cfg _ _ _ _ _ _). cbn zeta. destruct (match get (c_key c') (files s) with Some (seed, _) => negb (seed =? fst kf) | None => false end) eqn:O; [intros [= <- <-]; split; [easy|now left]|].
    set (t := set_files (put (c_key c') kf (files s)) s). destruct (create_account c' p t) as [u b] eqn:E.
    assert (KT : keeps_keys s t).
    { intros f seed fp H. unfold t. cbn [set_files files]. rewrite get_put. destruct (N.eqb_spec (c_key c') f) as [<-|N]; [|now exists fp]. rewrite H in O. apply negb_false_iff, N.eqb_eq in O. destruct kf as [x y]. cbn in O. subst x. now exists y. }
    pose proof (create_spec _ _ _ _ _ E) as [F C]. destruct b.
    - intros [= <- <-]. split; [intros f seed fp H; rewrite F; now apply (KT f seed fp)|]. right. exists c', t. split; [easy|]. split; [easy|]. split; [easy|]. split.
      + intros f N. rewrite F. unfold t. cbn [set_files files]. rewrite get_put. now rewrite (proj2 (N.eqb_neq _ _)) by congruence.
      + split; [rewrite F; unfold t; cbn [set_files files]; rewrite get_put; now rewrite N.eqb_refl|]. repeat (split; [easy|]). exact E.
    - intros H. assert (UT : u = t).
      { destruct C as [[C _]|[x [A [K C]]]]; [easy|]. exfalso. destruct A as [_ [_ [_ A]]]. unfold t in A. cbn [set_files files] in A. rewrite get_put, N.eqb_refl in A. destruct kf as [seed y]. destruct A as [_ A].
        enough (false = true) by easy. apply A. unfold c'. cbn [c_pass c_fp fst]. destruct p; [right; right; now left|now left]. }
      subst u. destruct (get (c_key c') (files s)) as [x|] eqn:G.
      + injection H as <- <-. split; [exact KT|]. now left.
      + injection H as <- <-. split; [|now left]. intros f seed fp H. change (exists fp', get f (del (c_key c') (put (c_key c') kf (files s))) = Some (seed, fp')). destruct (N.eqb_spec (c_key c') f) as [<-|NE]; [congruence|].
        exists fp. assert (Q : forall (l : list (N * key_file)) k, k <> f -> get f (del k l) = get f l).
        { clear. intros l k N. unfold get, del. induction l as [|[a b] r IH]; [easy|]. cbn. destruct (N.eqb_spec a k) as [->|M]; cbn; [destruct (N.eqb_spec k f); [easy|exact IH]|]. now destruct (a =? f). }
        rewrite Q by easy. rewrite get_put. now rewrite (proj2 (N.eqb_neq _ _)) by easy.
  Qed.

  Lemma remove_spec i s s' ok : remove_account max_keys i s = (s', ok) -> files s' = files s /\
    ((s' = s /\ ok = false) \/ (ok = true /\ (max_keys <= i)%nat /\ slot i s <> None /\ (forall j, slot j s' = if (i =? j)%nat then None else slot j s) /\ length (wallets s') = length (wallets s) /\
      exists c, nth_error (accts s) (i - max_keys) = Some c /\ accts s' = set_nth (i - max_keys) (hide c) (accts s) /\ disk s' = accts s')).
  Proof.
    unfold remove_account. destruct (Nat.ltb_spec i max_keys) as [L|L]; [intros [= <- <-]; split; [easy|now left]|].
    destruct (slot i s) as [x|] eqn:S; [|intros [= <- <-]; split; [easy|now left]]. destruct (nth_error (accts s) (i - max_keys)) as [c|] eqn:E; [|intros [= <- <-]; split; [easy|now left]].
    intros [= <- <-]. split; [easy|]. right. split; [easy|]. split; [easy|]. split; [easy|].
    assert (I : (i < length (wallets s))%nat). { destruct (Nat.lt_ge_cases i (length (wallets s))) as [H|H]; [easy|]. rewrite (slot_len i s H) in S. discriminate. }
    split; [|split; [cbn; apply len_set|now exists c]]. intros j. unfold slot. cbn [set_wallets set_both wallets]. rewrite nth_set. destruct (i =? j)%nat; [|easy]. now rewrite (proj2 (Nat.ltb_lt _ _) I).
  Qed.

  Lemma count_spec i n s s' ok : set_address_count fpr max_keys max_addrs i n s = (s', ok) -> files s' = files s /\
    ((s' = s /\ ok = false) \/ exists c t u b, (max_keys <= i)%nat /\ nth_error (accts s) (i - max_keys) = Some c /\ files t = files s /\ (forall j, slot j t = if (i =? j)%nat then None else slot j s) /\ length (wallets t) = length (wallets s) /\
       accts t = set_nth (i - max_keys) (set_num n c) (accts s) /\ added i (set_num n c) None t u b /\ kept t u /\ ok = b /\ (if b then s' = set_both (accts t) u else s' = u)).
  Proof.
    unfold set_address_count. destruct (_ || _) eqn:O; [intros [= <- <-]; split; [easy|now left]|]. apply orb_false_iff in O. destruct O as [_ O]. apply Nat.ltb_ge in O.
    destruct (nth_error (accts s) (i - max_keys)) as [c|] eqn:E; [|intros [= <- <-]; split; [easy|now left]]. cbn zeta.
    set (t := set_wallets (set_nth i None (wallets (set_accts (set_nth (i - max_keys) (set_num n c) (accts s)) s))) (set_accts (set_nth (i - max_keys) (set_num n c) (accts s)) s)).
    destruct (add_account i (set_num n c) None t) as [u b] eqn:A. apply add_spec in A. destruct A as [K A].
    assert (S : forall j, slot j t = if (i =? j)%nat then None else slot j s).
    { intros j. unfold slot, t. cbn [set_wallets set_accts wallets]. rewrite nth_set. destruct (i =? j)%nat; [|easy]. now destruct (i <? length (wallets s))%nat. }
    destruct A as [[_ [_ A]]|A]; [rewrite S, Nat.eqb_refl in A; easy|].
    assert (F : files u = files s) by apply K. intros H. split; [destruct b; injection H as <- <-; exact F|]. right. exists c, t, u, b. split; [easy|]. split; [easy|]. split; [easy|]. split; [exact S|]. split; [unfold t; cbn; apply len_set|].
    split; [easy|]. split; [easy|]. split; [easy|]. destruct b; injection H as <- <-; (split; [easy|]); [|easy]. destruct K as [_ [-> _]]. reflexivity.
  Qed.

  (** loading *)
  Lemma keys_fold l s n : (forall e, In e l -> (fst e < n)%nat) -> (length (wallets s) <= n)%nat ->
    let t := fold_left (fun s (e : nat * N) => fst (add_account (fst e) (mk_cfg (snd e) 0 num_addrs 0 false false) None s)) l s in
    kept s t /\ (length (wallets t) <= n)%nat.
  Proof.
    revert s. induction l as [|e l IH]; intros s H L; [now split|]. cbn [fold_left]. destruct (add_account (fst e) (mk_cfg (snd e) 0 num_addrs 0 false false) None s) as [u b] eqn:A. apply add_spec in A. destruct A as [K A]. cbn [fst].
    assert (LU : (length (wallets u) <= n)%nat). { destruct A as [[-> _]|[_ [A _]]]; [easy|]. rewrite A. specialize (H e (or_introl eq_refl)). lia. }
    destruct (IH u) as [K2 L2]; [intros x X; apply H; now right|easy|]. split; [|easy]. destruct K as [K1 [K3 K4]], K2 as [K5 [K6 K7]]. unfold kept. now rewrite K5, K6, K7.
  Qed.
  Definition loaded (fs : list (N * key_file)) (l : list cfg) (t : st) : Prop :=
    forall i, match nth_error l i with
      | Some c => if c_hidden c then slot (max_keys + i) t = None else
          match get (c_key c) fs with Some (seed, _) => exists w, slot (max_keys + i) t = Some (w, seed) /\ same_account w c | None => slot (max_keys + i) t = None end
      | None => slot (max_keys + i) t = None
      end.
  Lemma accts_fold l s : (length (wallets s) <= max_keys)%nat ->
    let t := fold_left (fun s (e : nat * cfg) => if c_hidden (snd e) then s else fst (add_account (fst e) (snd e) None s)) (combine (seq max_keys (length l)) l) s in
    kept s t /\ (length (wallets t) <= max_keys + length l)%nat /\ loaded (files s) l t /\
    (forall m c, l = m ++ [c] -> c_hidden c = false -> length (wallets t) = (max_keys + length l)%nat).
  Proof.
    intros L. induction l as [|c l IH] using rev_ind.
    - cbn. split; [now split|]. split; [lia|]. split; [|intros m c E; now destruct m]. intros i. destruct i; apply slot_len; lia.
    - rewrite app_length. cbn [length]. rewrite Nat.add_1_r, seq_S, combine_snoc by (now rewrite seq_length). rewrite fold_left_app. cbn [fold_left fst snd].
      cbn zeta in IH. set (t := fold_left _ (combine (seq max_keys (length l)) l) s) in *. destruct IH as [K [LT [LO _]]]. destruct (c_hidden c) eqn:HC.
      + split; [easy|]. split; [lia|]. split.
        * intros i. destruct (Nat.lt_ge_cases i (length l)) as [Q|Q]; [rewrite nth_error_app1 by easy; apply LO|]. rewrite nth_error_app2 by easy. assert (N : slot (max_keys + i) t = None) by (apply slot_len; lia).
          destruct (i - length l)%nat as [|k]; cbn; [now rewrite HC|]. now destruct k.
        * intros m d E H. apply app_inj_tail in E. destruct E as [_ <-]. congruence.
      + destruct (add_account (max_keys + length l) c None t) as [u b] eqn:A. cbn [fst]. apply add_spec in A. destruct A as [K2 [[_ [_ A]]|A]]; [exfalso; apply A, slot_len; lia|].
        destruct A as [_ [A1 [A2 A3]]]. assert (FT : files t = files s) by apply K.
        split; [destruct K as [Ka [Kb Kc]], K2 as [Kd [Ke Kf]]; unfold kept; now rewrite Kd, Ke, Kf|]. split; [lia|]. split.
        * intros i. destruct (Nat.lt_ge_cases i (length l)) as [Q|Q].
          -- rewrite nth_error_app1 by easy. specialize (LO i). rewrite A2 by lia. exact LO.
          -- rewrite nth_error_app2 by easy. destruct (i - length l)%nat as [|k] eqn:D.
             ++ cbn [nth_error]. rewrite HC. replace (max_keys + i)%nat with (max_keys + length l)%nat by lia. rewrite FT in A3. destruct (get (c_key c) (files s)) as [[seed fp]|]; [apply A3|apply A3].
             ++ replace (nth_error [c] (S k)) with (@None cfg) by (now destruct k). rewrite A2 by lia. apply slot_len. lia.
        * intros m d E H. lia.
  Qed.
  Lemma load_spec s : (length keys <= max_keys)%nat -> let t := load s in
    files t = files s /\ accts t = disk s /\ disk t = disk s /\ (length (wallets t) <= max_keys + length (disk s))%nat /\ loaded (files s) (disk s) t /\
    (forall m c, disk s = m ++ [c] -> c_hidden c = false -> length (wallets t) = (max_keys + length (disk s))%nat).
  Proof.
    intros K. unfold AccModel.load. set (s0 := mk_st (files s) [] (disk s) (disk s)).
    destruct (keys_fold (combine (seq 0 (length keys)) keys) s0 max_keys) as [K1 L1]; [|cbn; lia|].
    { intros [a b] H. apply in_combine_l in H. apply in_seq in H. cbn. lia. }
    cbn zeta in *. set (s1 := fold_left _ (combine (seq 0 (length keys)) keys) s0) in *. destruct K1 as [F [A D]].
    destruct (accts_fold (accts s1) s1 L1) as [[F2 [A2 D2]] [L2 [LO L3]]]. cbn zeta in *. set (t := fold_left _ _ s1) in *. rewrite F2, A2, D2, F, A, D. rewrite F, A in LO. rewrite A in L2, L3. now repeat split.
  Qed.

  (** slots point to key files that are there *)
  Definition slots_ok (s : st) : Prop := forall i c seed, slot i s = Some (c, seed) -> exists fp, get (c_key c) (files s) = Some (seed, fp).
  Lemma added_ok i c p s t ok : added i c p s t ok -> kept s t -> slots_ok s -> slots_ok t.
  Proof.
    intros [_ [_ [A B]]] [F _] S j d seed H. rewrite F. destruct (Nat.eq_dec j i) as [->|N].
    - destruct (get (c_key c) (files s)) as [[x fp]|] eqn:G; [|destruct B as [_ B]; congruence]. destruct B as [[c' [B1 [B2 _]]] _]. rewrite B1 in H. injection H as <- <-. exists fp. rewrite B2. exact G.
    - rewrite A in H by easy. now apply (S j).
  Qed.
  Lemma add_ok i c p s : slots_ok s -> slots_ok (fst (add_account i c p s)).
  Proof. intros S. destruct (add_account i c p s) as [t b] eqn:E. apply add_spec in E. destruct E as [K [[-> _]|E]]; [exact S|]. now apply (added_ok i c p s t b). Qed.
  Lemma load_ok s : slots_ok (load s).
  Proof.
    unfold AccModel.load.
    assert (A : forall l s, slots_ok s -> slots_ok (fold_left (fun s (e : nat * N) => fst (add_account (fst e) (mk_cfg (snd e) 0 num_addrs 0 false false) None s)) l s)).
    { induction l as [|e l IH]; intros t H; [exact H|]. cbn [fold_left]. apply IH. now apply add_ok. }
    assert (B : forall l s, slots_ok s -> slots_ok (fold_left (fun s (e : nat * cfg) => if c_hidden (snd e) then s else fst (add_account (fst e) (snd e) None s)) l s)).
    { induction l as [|e l IH]; intros t H; [exact H|]. cbn [fold_left]. apply IH. destruct (c_hidden (snd e)); [exact H|now apply add_ok]. }
    apply B, A. intros i c seed H. unfold slot in H. cbn in H. now destruct i.
  Qed.
  Lemma files_load s : (length keys <= max_keys)%nat -> files (load s) = files s.
  Proof. intros H. apply (load_spec s H). Qed.
  Lemma create_ok c p s s' ok : create_account c p s = (s', ok) -> slots_ok s -> slots_ok s'.
  Proof.
    intros E S. apply create_spec in E. destruct E as [_ [[-> _]|[t [A [K C]]]]]; [exact S|]. pose proof (added_ok _ _ _ _ _ _ A K S) as T. destruct ok; subst s'; exact T.
  Qed.
  Lemma step_inv s o s' ok : (length keys <= max_keys)%nat -> step s o = (s', ok) -> slots_ok s -> keeps_keys s s' /\ slots_ok s'.
  Proof.
    intros KL E S. assert (R : forall t, files t = files s -> keeps_keys s t) by (intros t F f seed fp H; rewrite F; now exists fp).
    assert (I : forall c k p, import_wallet c k p s = (s', ok) -> keeps_keys s s' /\ slots_ok s').
    { intros c k p H. apply import_spec in H. destruct H as [KK H]. split; [exact KK|]. destruct H as [[_ [W [A D]]]|[c' [t [-> [_ [_ [FO [FK [W [A [D C]]]]]]]]]]].
      - intros i d seed H. unfold slot in H. rewrite W in H. destruct (S i d seed H) as [fp G]. now apply (KK _ _ fp).
      - apply (create_ok c' p t s' true C). intros i d seed H. unfold slot in H. rewrite W in H. destruct (S i d seed H) as [fp G]. apply KK in G. now rewrite (proj1 (create_spec _ _ _ _ _ C)) in G. }
    destruct o as [c p|c k p|c x p|i|i n|]; cbn [AccModel.step] in E.
    - split; [apply R, (create_spec _ _ _ _ _ E)|now apply (create_ok c p s s' ok)].
    - now apply (I c k p).
    - now apply (I _ _ _ E).
    - apply remove_spec in E. destruct E as [F E]. split; [now apply R|]. destruct E as [[-> _]|[_ [_ [_ [E _]]]]]; [exact S|]. intros j c seed H. rewrite E in H. destruct (i =? j)%nat; [discriminate|]. rewrite F. now apply (S j).
    - apply count_spec in E. destruct E as [F E]. split; [now apply R|]. destruct E as [[-> _]|[c [t [u [b [_ [_ [FT [ST [_ [_ [A [K [_ E]]]]]]]]]]]]]]; [exact S|].
      assert (T : slots_ok t) by (intros j d seed H; rewrite ST in H; destruct (i =? j)%nat; [discriminate|]; rewrite FT; now apply (S j)). pose proof (added_ok _ _ _ _ _ _ A K T) as U. destruct b; subst s'; exact U.
    - injection E as <- <-. split; [apply R; now apply files_load|apply load_ok].
  Qed.

  (** accounts and slots match *)
  Definition aligned (s : st) : Prop := disk s = accts s /\ (length (wallets s) = (max_keys + length (accts s))%nat \/ (accts s = [] /\ (length (wallets s) <= max_keys)%nat)) /\
    forall i c, nth_error (accts s) i = Some c -> if c_hidden c then slot (max_keys + i) s = None else exists w seed, slot (max_keys + i) s = Some (w, seed) /\ same_account w c.
  Lemma create_aligned c p s s' : c_hidden c = false -> create_account c p s = (s', true) -> aligned s -> aligned s'.
  Proof.
    intros H E [D [L A]]. apply create_spec in E. destruct E as [_ [[_ E]|[t [[_ [T1 [T2 T3]]] [[_ [K2 K3]] E]]]]]; [discriminate|]. subst s'.
    assert (I : max max_keys (length (wallets s)) = (max_keys + length (accts s))%nat) by (destruct L as [L|[-> L]]; cbn; lia). rewrite I in *.
    split; [reflexivity|]. cbn [set_both accts wallets]. split; [left; rewrite app_length; cbn [length]; destruct L as [L|[-> L]]; cbn [length] in *; lia|].
    intros i d N. change (slot (max_keys + i) (set_both (accts s ++ [c]) t)) with (slot (max_keys + i) t). destruct (Nat.lt_ge_cases i (length (accts s))) as [Q|Q].
    - rewrite nth_error_app1 in N by easy. apply A in N. rewrite T2 by lia. exact N.
    - rewrite nth_error_app2 in N by easy. destruct (i - length (accts s))%nat as [|k] eqn:Z; [|cbn in N; now destruct k]. injection N as <-. rewrite H. replace (max_keys + i)%nat with (max_keys + length (accts s))%nat by lia.
      destruct (get (c_key c) (files s)) as [[seed fp]|]; [|destruct T3 as [T3 _]; discriminate]. destruct T3 as [[w W] _]. now exists w, seed.
  Qed.
  Lemma plain_aligned s o : (length keys <= max_keys)%nat -> plain fpr max_keys max_addrs s o -> slots_ok s -> aligned s -> aligned (fst (step s o)).
  Proof.
    intros KL P S AL. assert (I : forall c k p, c_hidden c = false -> aligned (fst (import_wallet c k p s))).
    { intros c k p HC. destruct (import_wallet c k p s) as [s' ok] eqn:E. cbn [fst]. apply import_spec in E. destruct AL as [D [L A]]. destruct E as [_ [[_ [W [A' D']]]|[c' [t [_ [HC' [_ [_ [_ [W [A' [D' E]]]]]]]]]]]].
      - unfold aligned, slot. rewrite W, A', D'. easy.
      - apply (create_aligned c' p t s'); [congruence|easy|]. unfold aligned, slot. rewrite W, A', D'. easy. }
    destruct o as [c p|c k p|c x p|i|i n|]; cbn [AccModel.step plain] in *.
    - destruct P as [HC P]. destruct (create_account c p s) as [s' ok] eqn:E. cbn [snd fst] in *. subst ok. now apply (create_aligned c p s s').
    - now apply I.
    - now apply I.
    - destruct (remove_account max_keys i s) as [s' ok] eqn:E. cbn [fst]. apply remove_spec in E. destruct E as [_ [[-> _]|[_ [M [_ [E1 [E2 [c [E3 [E4 E5]]]]]]]]]]; [exact AL|]. destruct AL as [D [L A]].
      split; [exact E5|]. rewrite E2, E4, len_set. split; [destruct L as [L|[L _]]; [now left|rewrite L in E3; now destruct (i - max_keys)%nat]|].
      intros j d N. rewrite nth_set in N. destruct (Nat.eqb_spec (i - max_keys) j) as [<-|Q].
      + destruct (i - max_keys <? length (accts s))%nat; [|discriminate]. injection N as <-. cbn [hide c_hidden]. rewrite E1. replace (max_keys + (i - max_keys))%nat with i by lia. now rewrite Nat.eqb_refl.
      + apply A in N. rewrite E1. rewrite (proj2 (Nat.eqb_neq i (max_keys + j))) by lia. exact N.
    - destruct (set_address_count fpr max_keys max_addrs i n s) as [s' ok] eqn:E. cbn [fst]. apply count_spec in E. destruct E as [_ [[-> _]|[c [t [u [b [M [E1 [FT [ST [LT [AT [[U0 [U1 [U2 U3]]] [[K1 [K2 K3]] [_ E]]]]]]]]]]]]]]]; [exact AL|]. destruct AL as [D [L A]].
      assert (IL : (i - max_keys < length (accts s))%nat) by (apply nth_error_Some; congruence).
      assert (HC : c_hidden c = false). { destruct (c_hidden c) eqn:H; [|easy]. exfalso. apply A in E1. rewrite H in E1. replace (max_keys + (i - max_keys))%nat with i in E1 by lia. unfold get_account in P. now rewrite E1 in P. }
      pose proof (A _ _ E1) as AC. rewrite HC in AC. destruct AC as [w [seed [AC SA]]]. replace (max_keys + (i - max_keys))%nat with i in AC by lia. destruct (S i w seed AC) as [fp G].
      assert (GK : get (c_key (set_num n c)) (files t) = Some (seed, fp)). { rewrite FT. cbn [set_num c_key]. destruct SA as [<- _]. exact G. }
      rewrite GK in U3. destruct U3 as [[w' [W1 W2]] U4]. rewrite (U4 (or_intror (or_introl eq_refl))) in E. subst s'.
      split; [reflexivity|]. cbn [set_both accts wallets]. rewrite AT, len_set. split; [left; destruct L as [L|[L _]]; [lia|rewrite L in IL; cbn in IL; lia]|].
      intros j d N. change (slot (max_keys + j) (set_both (set_nth (i - max_keys) (set_num n c) (accts s)) u)) with (slot (max_keys + j) u). rewrite nth_set in N. destruct (Nat.eqb_spec (i - max_keys) j) as [<-|Q].
      + rewrite (proj2 (Nat.ltb_lt _ _) IL) in N. injection N as <-. cbn [set_num c_hidden]. rewrite HC. replace (max_keys + (i - max_keys))%nat with i by lia. now exists w', seed.
      + apply A in N. rewrite U2, ST by lia. rewrite (proj2 (Nat.eqb_neq i (max_keys + j))) by lia. exact N.
    - cbn [fst]. destruct (load_spec s KL) as [F [A' [D' [L' [LO LX]]]]]. destruct AL as [D [L A]]. unfold aligned. rewrite A', D'. rewrite D in *. split; [easy|]. split.
      + destruct (accts s) as [|c0 l0] eqn:Z using rev_ind; [right; split; [easy|cbn in L'; lia]|]. clear IHl0. left. apply (LX l0 c0 eq_refl). now apply (P l0 c0).
      + intros i c N. specialize (LO i). rewrite N in LO. destruct (c_hidden c) eqn:H; [exact LO|]. pose proof (A _ _ N) as AC. rewrite H in AC. destruct AC as [w [seed [AC SA]]]. destruct (S _ _ _ AC) as [fp G].
        destruct SA as [SK _]. rewrite SK in G. rewrite G in LO. destruct LO as [w' LO]. now exists w', seed.
  Qed.
  Lemma aligned_same s : (length keys <= max_keys)%nat -> slots_ok s -> aligned s -> same_list max_keys s (load s).
  Proof.
    intros KL S [D [L A]] i M. destruct (load_spec s KL) as [F [A' [D' [L' [LO _]]]]]. specialize (LO (i - max_keys)%nat). rewrite D in LO. replace (max_keys + (i - max_keys))%nat with i in LO by lia.
    destruct (nth_error (accts s) (i - max_keys)) as [c|] eqn:E.
    - apply A in E. replace (max_keys + (i - max_keys))%nat with i in E by lia. destruct (c_hidden c); [now rewrite E, LO|]. destruct E as [w [seed [E SA]]]. destruct (S _ _ _ E) as [fp G]. rewrite (proj1 SA) in G. rewrite G in LO. destruct LO as [w' [LO SB]].
      rewrite E, LO. destruct SA as [-> [-> [-> [-> _]]]], SB as [-> [-> [-> [-> _]]]]. easy.
    - apply nth_error_None in E. rewrite LO. rewrite (slot_len i s); [easy|]. destruct L as [L|[L1 L2]]; [lia|]. lia.
  Qed.
End WALLET.
