Require Import List Arith NArith ZArith Bool String Lia Permutation.
From Verif Require Import PrsModel PrsSpec.
Import ListNotations.
Open Scope N_scope.

Set Default Proof Using "Type".

(** Maps *)
Section MAPS.
  Context {V : Type}.
  Implicit Types l : list (N * V).
  Lemma get_in c l v : get c l = Some v -> In (c, v) l.
  Proof.
    unfold get. destruct (find _ l) as [[k w]|] eqn:E; [|discriminate]. intros [= <-]. apply find_some in E. destruct E as [E1 E2]. cbn in E2.
    apply N.eqb_eq in E2. now subst.
  Qed.
  Lemma get_none c l : get c l = None <-> ~ In c (map fst l).
  Proof.
    unfold get. destruct (find _ l) as [[k w]|] eqn:E.
    - split; [discriminate|]. intros H. exfalso. apply find_some in E. destruct E as [E1 E2]. apply N.eqb_eq in E2. cbn in E2. subst. apply H. apply in_map_iff. now exists (c, w).
    - split; [|reflexivity]. intros _ H. apply in_map_iff in H. destruct H as [[k w] [H1 H2]]. cbn in H1. subst. apply (find_none _ _ E) in H2. cbn in H2. rewrite N.eqb_refl in H2. discriminate.
  Qed.
  Lemma in_key c v l : In (c, v) l -> In c (map fst l).
  Proof. intros H. apply in_map_iff. now exists (c, v). Qed.
  Lemma key_in c l : In c (map fst l) -> exists v, In (c, v) l.
  Proof. intros H. apply in_map_iff in H. destruct H as [[k w] [H1 H2]]. cbn in H1. subst. now exists w. Qed.
  Lemma nodup_in c v w l : NoDup (map fst l) -> In (c, v) l -> In (c, w) l -> v = w.
  Proof.
    induction l as [|[k x] r IH]; [easy|]. cbn. intros N H1 H2. inversion N as [|? ? N1 N2]; subst.
    destruct H1 as [H1|H1], H2 as [H2|H2]; [congruence|injection H1 as -> ->|injection H2 as -> ->|].
    - now apply in_key in H2.
    - now apply in_key in H1.
    - now apply IH.
  Qed.
  Lemma in_get c v l : NoDup (map fst l) -> In (c, v) l -> get c l = Some v.
  Proof.
    intros N H. destruct (get c l) as [w|] eqn:E.
    - apply get_in in E. f_equal. now apply (nodup_in c w v l).
    - apply get_none in E. now apply in_key in H.
  Qed.
  Lemma in_del k v c l : In (k, v) (del c l) <-> In (k, v) l /\ k <> c.
  Proof. unfold del. rewrite filter_In. cbn. rewrite negb_true_iff, N.eqb_neq. tauto. Qed.
  Lemma key_del k c l : In k (map fst (del c l)) <-> In k (map fst l) /\ k <> c.
  Proof.
    split.
    - intros H. apply key_in in H. destruct H as [v H]. apply in_del in H. split; [now apply (in_key _ v)|easy].
    - intros [H1 H2]. apply key_in in H1. destruct H1 as [v H]. apply (in_key _ v). now apply in_del.
  Qed.
  Lemma nodup_filter_keys (f : N * V -> bool) l : NoDup (map fst l) -> NoDup (map fst (filter f l)).
  Proof.
    induction l as [|[k x] r IH]; [easy|]. cbn. intros N. inversion N as [|? ? N1 N2]; subst. destruct (f (k, x)); [|now apply IH].
    cbn. constructor; [|now apply IH]. intros H. apply N1. apply in_map_iff in H. destruct H as [e [H1 H2]]. apply filter_In in H2. apply in_map_iff. now exists e.
  Qed.
  Lemma del_none c l : ~ In c (map fst l) -> del c l = l.
  Proof.
    induction l as [|[k x] r IH]; [easy|]. cbn. intros H. unfold del in *. cbn. destruct (N.eqb_spec k c) as [->|N]; [exfalso; apply H; now left|].
    cbn. now rewrite IH by tauto.
  Qed.
  Lemma keys_upd c f l : map fst (upd c f l) = map fst l.
  Proof. unfold upd. rewrite map_map. apply map_ext. intros [k v]. cbn. now destruct (k =? c). Qed.
  Lemma in_upd k v c f l : In (k, v) (upd c f l) <-> (k <> c /\ In (k, v) l) \/ (k = c /\ exists w, v = f w /\ In (c, w) l).
  Proof.
    unfold upd. rewrite in_map_iff. split.
    - intros [[k' w] [H1 H2]]. cbn in H1. destruct (N.eqb_spec k' c) as [->|N]; injection H1 as <- <-; [right|left]; [split; [easy|now exists w]|easy].
    - intros [[H1 H2]|[-> [w [-> H]]]].
      + exists (k, v). cbn. destruct (N.eqb_spec k c); [easy|tauto].
      + exists (c, w). cbn. rewrite N.eqb_refl. tauto.
  Qed.
End MAPS.

Section SMAPS.
  Context {V : Type}.
  Implicit Types l : list (string * V).
  Lemma sget_in c l v : sget c l = Some v -> In (c, v) l.
  Proof.
    unfold sget. destruct (find _ l) as [[k w]|] eqn:E; [|discriminate]. intros [= <-]. apply find_some in E. destruct E as [E1 E2]. cbn in E2.
    apply String.eqb_eq in E2. now subst.
  Qed.
  Lemma sin_key c v l : In (c, v) l -> In c (map fst l).
  Proof. intros H. apply in_map_iff. now exists (c, v). Qed.
  Lemma sget_none c l : sget c l = None -> ~ In c (map fst l).
  Proof.
    unfold sget. destruct (find _ l) as [[k w]|] eqn:E; [discriminate|]. intros _ H. apply in_map_iff in H. destruct H as [[k w] [H1 H2]]. cbn in H1. subst.
    apply (find_none _ _ E) in H2. cbn in H2. rewrite String.eqb_refl in H2. discriminate.
  Qed.
  Lemma snodup_in c v w l : NoDup (map fst l) -> In (c, v) l -> In (c, w) l -> v = w.
  Proof.
    induction l as [|[k x] r IH]; [easy|]. cbn. intros N H1 H2. inversion N as [|? ? N1 N2]; subst.
    destruct H1 as [H1|H1], H2 as [H2|H2]; [congruence|injection H1 as -> ->|injection H2 as -> ->|].
    - now apply sin_key in H2.
    - now apply sin_key in H1.
    - now apply IH.
  Qed.
  Lemma in_sget c v l : NoDup (map fst l) -> In (c, v) l -> sget c l = Some v.
  Proof.
    intros N H. destruct (sget c l) as [w|] eqn:E.
    - apply sget_in in E. f_equal. now apply (snodup_in c w v l).
    - apply sget_none in E. now apply sin_key in H.
  Qed.
  Lemma in_sdel k v c l : In (k, v) (sdel c l) <-> In (k, v) l /\ k <> c.
  Proof. unfold sdel. rewrite filter_In. cbn. rewrite negb_true_iff, String.eqb_neq. tauto. Qed.
  Lemma snodup_sdel c l : NoDup (map fst l) -> NoDup (map fst (sdel c l)).
  Proof.
    unfold sdel. induction l as [|[k x] r IH]; [easy|]. cbn. intros N. inversion N as [|? ? N1 N2]; subst. destruct (negb (k == c)); [|now apply IH].
    cbn. constructor; [|now apply IH]. intros H. apply N1. apply in_map_iff in H. destruct H as [e [H1 H2]]. apply filter_In in H2. apply in_map_iff. now exists e.
  Qed.
End SMAPS.

Lemma smem_in k l : smem k l = true <-> In k l.
Proof. unfold smem. rewrite existsb_exists. split; [intros [x [H1 H2]]; apply String.eqb_eq in H2; now subst|intros H; exists k; now rewrite String.eqb_refl]. Qed.
Lemma in_sins_ x k l : In x (sins_ k l) <-> x = k \/ In x l.
Proof.
  induction l as [|y r IH]; cbn; [intuition auto|]. destruct (String.compare k y); cbn; rewrite ?IH; intuition auto.
Qed.
Lemma in_sins x k l : In x (sins k l) <-> x = k \/ In x l.
Proof. unfold sins. destruct (smem k l) eqn:E; [|apply in_sins_]. apply smem_in in E. intuition (subst; auto). Qed.
Lemma len_sins_ k l : List.length (sins_ k l) = S (List.length l).
Proof. induction l as [|y r IH]; cbn; [easy|]. destruct (String.compare k y); cbn; now rewrite ?IH. Qed.
Lemma len_sins k l : (List.length (sins k l) <= S (List.length l))%nat.
Proof. unfold sins. destruct (smem k l); [lia|]. now rewrite len_sins_. Qed.
Lemma nodup_sins_ k l : ~ In k l -> NoDup l -> NoDup (sins_ k l).
Proof.
  induction l as [|y r IH]; cbn; intros H N; [constructor; easy|]. inversion N as [|? ? N1 N2]; subst.
  destruct (String.compare k y); constructor; try easy; try (intros H2; apply in_sins_ in H2; destruct H2; subst; tauto); apply IH; tauto.
Qed.
Lemma nodup_sins k l : NoDup l -> NoDup (sins k l).
Proof. intros N. unfold sins. destruct (smem k l) eqn:E; [easy|]. apply nodup_sins_; [|easy]. intros H. apply smem_in in H. congruence. Qed.
Lemma in_nrem x c l : In x (nrem c l) <-> In x l /\ x <> c.
Proof. unfold nrem. rewrite filter_In, negb_true_iff, N.eqb_neq. tauto. Qed.

Lemma fold_inv {A S} (P : S -> Prop) (f : S -> A -> S) : (forall s a, P s -> P (f s a)) -> forall l s, P s -> P (fold_left f l s).
Proof. intros H. induction l as [|a r IH]; cbn; [easy|]. intros s Hs. apply IH. now apply H. Qed.

Lemma in_all l : forall acc h, In h (fold_left (fun acc h => sins h acc) l acc) <-> In h acc \/ In h l.
Proof. induction l as [|x l IH]; cbn [fold_left]; intros acc h; [cbn; tauto|]. rewrite IH, in_sins. cbn. intuition auto. Qed.

(** The invariant *)
Record I (cn : list (N * (string * bool))) (nx : N) (ps : list (N * peer)) (ad : list (string * N)) (sy : list N) (di : list (string * N)) (ta : list (N * string)) : Prop := mk_I {
  i_cn : NoDup (map fst cn);
  i_cl : forall c, In c (map fst cn) -> c < nx;
  i_pn : NoDup (map fst ps);
  i_pl : forall c, In c (map fst ps) -> c < nx;
  i_open : forall c h, In (c, (h, true)) cn -> In c (map fst ps);
  i_peer : forall c, In c (map fst ps) -> (exists h, In (c, (h, true)) cn) \/ In c (map fst ta);
  i_task : forall c, In c (map fst ta) -> c < nx /\ ~ In c (map fst cn);
  i_addr : ad = map (fun e => (p_addr (snd e), fst e)) ps;
  i_sync : forall c, In c sy -> exists p, In (c, p) ps /\ p_sync p = true;
  i_uniq : forall c1 c2 p1 p2 i, In c1 (map fst cn) -> In c2 (map fst cn) -> In (c1, p1) ps -> In (c2, p2) ps -> p_node p1 = Some i -> p_node p2 = Some i -> c1 = c2;
  i_dn : NoDup (map fst di);
  i_d1 : forall h c, In (h, c) di -> In (c, (h, false)) cn \/ In (c, h) ta;
  i_d2 : forall h c, In (c, (h, false)) cn -> In (h, c) di
}.
Definition Inv (s : st) : Prop := I (conns s) (next s) (peers s) (addrs s) (synced s) (dials s) (tasks s).

Section ROUTER.
  Variables (resolve : string -> string) (is_ip : string -> bool) (addr_of : N -> N) (verify : N -> N -> N -> bool) (sign : N -> N -> N) (key_of : N -> N)
    (skey my_version : N) (cfg : config).
  Notation my_id := (my_id addr_of key_of skey).
  Notation run_task := (run_task resolve cfg).
  Notation on_connect := (on_connect resolve cfg).
  Notation connect_to := (connect_to resolve).
  Notation on_return := (on_return is_ip addr_of verify key_of skey).
  Notation update := (update cfg).
  Notation try_host := (try_host resolve).
  Notation try_connect := (try_connect resolve cfg).
  Notation connect := (connect resolve cfg).
  Notation step := (step resolve is_ip addr_of verify key_of skey cfg).
  Notation run := (run resolve is_ip addr_of verify key_of skey cfg).

  Lemma start_inv kn bl : Inv (start kn bl).
  Proof. constructor; cbn; try constructor; easy. Qed.

  (** What disconnect keeps *)
  Definition same_but_conns (s s' : st) : Prop :=
    next s' = next s /\ peers s' = peers s /\ addrs s' = addrs s /\ synced s' = synced s /\ dials s' = dials s /\ known s' = known s /\ retry s' = retry s
    /\ blocked s' = blocked s /\ selfs s' = selfs s /\ check s' = check s /\ out s' = out s /\ (forall x, In x (conns s') -> In x (conns s)).
  Lemma sbc_refl s : same_but_conns s s.
  Proof. unfold same_but_conns. repeat split; auto. Qed.
  Lemma sbc_trans a b c : same_but_conns a b -> same_but_conns b c -> same_but_conns a c.
  Proof. unfold same_but_conns. intros (?&?&?&?&?&?&?&?&?&?&?&H) (?&?&?&?&?&?&?&?&?&?&?&K). repeat split; try congruence. auto. Qed.
  Lemma disconnect_sbc c s : same_but_conns s (disconnect c s).
  Proof.
    unfold disconnect. destruct (get c (conns s)) as [[h b]|]; [|apply sbc_refl]. unfold same_but_conns. cbn. repeat split. intros [k v] H. now apply in_del in H.
  Qed.
  Lemma disconnect_gone c s : ~ In c (map fst (conns (disconnect c s))).
  Proof.
    unfold disconnect. destruct (get c (conns s)) as [[h b]|] eqn:E; cbn; [|now apply get_none]. intros H. apply key_del in H; now destruct H.
  Qed.
  Lemma disconnect_other c k x s : k <> c -> In (k, x) (conns s) -> In (k, x) (conns (disconnect c s)).
  Proof. intros N H. unfold disconnect. destruct (get c (conns s)) as [[h b]|]; cbn; [|easy]. now apply in_del. Qed.
  Lemma disconnect_tasks c s x : In x (tasks s) -> In x (tasks (disconnect c s)).
  Proof. unfold disconnect. destruct (get c (conns s)) as [[h b]|]; cbn; [|easy]. intros H. apply in_or_app. now left. Qed.

  Lemma disconnect_inv c s : Inv s -> Inv (disconnect c s).
  Proof.
    intros H. unfold disconnect. destruct (get c (conns s)) as [[h b]|] eqn:E; [|easy]. apply get_in in E. destruct H. constructor; cbn; try assumption.
    - now apply nodup_filter_keys.
    - intros k K. apply key_del in K. now apply i_cl0.
    - intros k h' K. apply in_del in K. now apply (i_open0 k h').
    - intros k K. destruct (N.eq_dec k c) as [->|N].
      + right. rewrite map_app. apply in_or_app. right. now left.
      + destruct (i_peer0 k K) as [[h' Q]|Q]; [left; exists h'; now apply in_del|right]. rewrite map_app. apply in_or_app. now left.
    - intros k K. rewrite map_app in K. apply in_app_or in K. destruct K as [K|[<-|[]]].
      + destruct (i_task0 k K) as [L1 L2]. split; [easy|]. intros Q. apply key_del in Q; now destruct Q.
      + cbn. split; [apply i_cl0; now apply (in_key _ (h, b))|]. intros Q. apply key_del in Q; now destruct Q.
    - intros c1 c2 p1 p2 i K1 K2. apply key_del in K1, K2. now apply i_uniq0.
    - intros h' k K. destruct (i_d3 h' k K) as [Q|Q]; [|right; apply in_or_app; now left]. destruct (N.eq_dec k c) as [->|N].
      + right. apply in_or_app. right. left. assert (X := nodup_in _ _ _ _ i_cn0 E Q). now injection X as -> _.
      + left. now apply in_del.
    - intros h' k K. apply in_del in K. now apply i_d4.
  Qed.

  Lemma fold_disconnect_inv l s : Inv s -> Inv (fold_left (fun s c => disconnect c s) l s).
  Proof. apply (fold_inv Inv). intros. now apply disconnect_inv. Qed.

  (** Disconnecting all that fulfil a condition *)
  Lemma fold_disc {A} (f : A -> bool) (k : A -> N) l : forall s,
    let s' := fold_left (fun s e => if f e then disconnect (k e) s else s) l s in
    (Inv s -> Inv s') /\ same_but_conns s s' /\ (forall e, In e l -> f e = true -> ~ In (k e) (map fst (conns s')))
    /\ (forall c x, In (c, x) (conns s) -> (forall e, In e l -> f e = true -> k e <> c) -> In (c, x) (conns s')).
  Proof.
    induction l as [|e r IH]; cbn; intros s; [split; [auto|split; [apply sbc_refl|split; [easy|auto]]]|].
    specialize (IH (if f e then disconnect (k e) s else s)). cbn in IH. destruct IH as (A1 & A2 & A3 & A4). split; [|split; [|split]].
    - intros H. apply A1. destruct (f e); [now apply disconnect_inv|easy].
    - eapply sbc_trans; [|exact A2]. destruct (f e); [apply disconnect_sbc|apply sbc_refl].
    - intros e' [<-|H] F; [|now apply A3]. intros Q. rewrite F in *. apply key_in in Q. destruct Q as [v Q].
      destruct A2 as (_&_&_&_&_&_&_&_&_&_&_&A2). apply A2, in_key in Q. now apply disconnect_gone in Q.
    - intros c x H Q. apply A4; [|intros; apply Q; auto]. destruct (f e) eqn:F; [|easy]. apply disconnect_other; [|easy]. intros ->. now apply (Q e); auto.
  Qed.

  Lemma connect_to_inv h s : Inv s -> Inv (connect_to h s).
  Proof.
    intros H. unfold PrsModel.connect_to. destruct (sget h (dials s)) eqn:E; [easy|]. destruct (resolve h == ""); [easy|]. apply sget_none in E. destruct H. constructor; cbn; try assumption.
    - constructor; [|easy]. intros Q. apply i_cl0 in Q. lia.
    - intros c [<-|Q]; [lia|]. apply i_cl0 in Q. lia.
    - intros c Q. apply i_pl0 in Q. lia.
    - intros c h' [Q|Q]; [discriminate|]. now apply (i_open0 c h').
    - intros c Q. destruct (i_peer0 c Q) as [[h' K]|K]; [left; exists h'; now right|now right].
    - intros c Q. destruct (i_task0 c Q) as [K1 K2]. split; [lia|]. intros [K|K]; [lia|easy].
    - intros c1 c2 p1 p2 i [<-|K1] K2 P1; [apply in_key, i_pl0 in P1; lia|]. destruct K2 as [<-|K2]; intros P2; [apply in_key, i_pl0 in P2; lia|]. now apply (i_uniq0 c1 c2 p1 p2 i).
    - constructor; easy.
    - intros h' c [[= <- <-]|Q]; [left; now left|]. destruct (i_d3 h' c Q) as [K|K]; [left; now right|now right].
    - intros h' c [[= <- <-]|Q]; [now left|right; now apply i_d4].
  Qed.

  Lemma run_task_inv now c h r s : Inv s -> tasks s = (c, h) :: r -> Inv (run_task now c h (set_tasks r s)).
  Proof.
    intros H T. destruct H. rewrite T in *.
    assert (NC : ~ In c (map fst (conns s))) by (apply i_task0; now left).
    set (di := match sget h (dials s) with Some c' => if c' =? c then sdel h (dials s) else dials s | None => dials s end).
    set (ad := match get c (peers s) with Some p => filter (fun e => negb ((fst e == p_addr p) && (snd e =? c)%N)) (addrs s) | None => addrs s end).
    assert (E : I (conns s) (next s) (del c (peers s)) ad (nrem c (synced s)) di r).
    { constructor; try assumption.
      - now apply nodup_filter_keys.
      - intros k K. apply key_del in K. now apply i_pl0.
      - intros k h' K. apply key_del. split; [now apply (i_open0 k h')|]. intros ->. now apply in_key in K.
      - intros k K. apply key_del in K. destruct K as [K N]. destruct (i_peer0 k K) as [Q|[Q|Q]]; [now left|cbn in Q; congruence|now right].
      - intros k K. apply i_task0. now right.
      - unfold ad. destruct (get c (peers s)) as [p|] eqn:G.
        + apply get_in in G. rewrite i_addr0. assert (L : forall l, (forall q, In (c, q) l -> q = p) -> filter (fun e => negb ((fst e == p_addr p) && (snd e =? c)%N)) (map (fun e : N * peer => (p_addr (snd e), fst e)) l) = map (fun e => (p_addr (snd e), fst e)) (del c l)).
          { induction l as [|[k q] l IH]; cbn; intros Q; [easy|]. unfold del in *. cbn. destruct (N.eqb_spec k c) as [->|N]; cbn.
            - rewrite (Q q) by now left. rewrite String.eqb_refl. cbn. apply IH. auto.
            - rewrite andb_false_r. cbn. f_equal. apply IH. auto. }
          apply L. intros q Q. now apply (nodup_in c q p (peers s)).
        + apply get_none in G. now rewrite del_none.
      - intros k K. apply in_nrem in K. destruct K as [K N]. destruct (i_sync0 k K) as [p [P1 P2]]. exists p. split; [now apply in_del|easy].
      - intros c1 c2 p1 p2 i K1 K2 P1 P2. apply in_del in P1, P2. now apply i_uniq0.
      - unfold di. destruct (sget h (dials s)) as [c'|]; [|easy]. destruct (c' =? c); [now apply snodup_sdel|easy].
      - intros h' k K. assert (K' : In (h', k) (dials s)). { revert K. unfold di. destruct (sget h (dials s)) as [c'|]; [|easy]. destruct (c' =? c); [|easy]. intros K. now apply in_sdel in K. }
        destruct (i_d3 h' k K') as [Q|[Q|Q]]; [now left| |now right]. injection Q as -> ->. exfalso. unfold di in K. rewrite (in_sget _ _ _ i_dn0 K'), N.eqb_refl in K. now apply in_sdel in K.
      - intros h' k K. assert (Q := i_d4 h' k K). unfold di. destruct (sget h (dials s)) as [c'|] eqn:G; [|easy]. destruct (N.eqb_spec c' c) as [->|]; [|easy]. apply in_sdel. split; [easy|].
        intros ->. apply sget_in in G. assert (X := snodup_in _ _ _ _ i_dn0 G Q). subst k. now apply in_key in K. }
    unfold Inv, PrsModel.run_task, ad, di in *. cbn. destruct (get c (peers s)); cbn; destruct (sget h (dials s)) as [c'|]; cbn; try destruct (c' =? c); exact E.
  Qed.

  (** A connection that is made *)
  Definition mine (c : N) (h : string) (s : st) : bool := match sget h (dials s) with Some c' => c' =? c | None => false end.
  Lemma on_connect_inv now c h chal s : (* [s]: the connection is open already, the rest is as before *)
    I (del c (conns s)) (next s) (peers s) (addrs s) (synced s) (if mine c h s then sdel h (dials s) else dials s) (tasks s) ->
    NoDup (map fst (conns s)) -> In (c, (h, true)) (conns s) -> c < next s -> ~ In c (map fst (peers s)) -> ~ In c (map fst (tasks s)) ->
    NoDup (map fst (dials s)) -> Inv (on_connect now c h chal s).
  Proof.
    intros H N C L P T D. unfold PrsModel.on_connect. destruct (smem (resolve h) (blocked s)).
    - unfold disconnect. rewrite (in_get _ _ _ N C). destruct H. constructor; cbn; try assumption.
      + intros k K. destruct (i_peer0 k K) as [Q|Q]; [now left|right]. rewrite map_app. apply in_or_app. now left.
      + intros k K. rewrite map_app in K. apply in_app_or in K. destruct K as [K|[<-|[]]]; [now apply i_task0|]. cbn. split; [easy|]. intros Q. apply key_del in Q; now destruct Q.
      + intros h' k K. assert (X : (h' = h /\ k = c) \/ In (h', k) (if mine c h s then sdel h (dials s) else dials s)).
        { destruct (mine c h s) eqn:E; [|now right]. destruct (string_dec h' h) as [->|M]; [left|right; now apply in_sdel]. unfold mine in E. rewrite (in_sget _ _ _ D K) in E. apply N.eqb_eq in E. now subst. }
        destruct X as [[-> ->]|X]; [right; apply in_or_app; right; now left|]. destruct (i_d3 h' k X) as [Q|Q]; [now left|right; apply in_or_app; now left].
      + intros h' k K. apply i_d4 in K. destruct (mine c h s); [now apply in_sdel in K|easy].
    - assert (G : forall q, p_addr q = resolve h -> p_node q = None -> I (conns s) (next s) ((c, q) :: del c (peers s)) ((resolve h, c) :: addrs s) (synced s) (if mine c h s then sdel h (dials s) else dials s) (tasks s)).
      { intros q Q1 Q2. rewrite (del_none c (peers s) P). destruct H. constructor; cbn; try assumption.
        - intros k K. destruct (N.eq_dec k c) as [->|M]; [easy|]. apply i_cl0. now apply key_del.
        - constructor; easy.
        - intros k [<-|K]; [easy|now apply i_pl0].
        - intros k h' K. destruct (N.eq_dec k c) as [->|M]; [now left|right]. apply (i_open0 k h'). now apply in_del.
        - intros k [<-|K]; [left; now exists h|]. destruct (i_peer0 k K) as [[h' Q]|Q]; [left; exists h'; now apply in_del in Q|now right].
        - intros k K. destruct (i_task0 k K) as [A B]. split; [easy|]. intros Q. apply B. apply key_del. split; [easy|]. intros ->. easy.
        - now rewrite i_addr0, Q1.
        - intros k K. destruct (i_sync0 k K) as [p [P1 P2]]. exists p. split; [now right|easy].
        - intros c1 c2 p1 p2 i K1 K2 [[= <- <-]|P1] P2 E1 E2; [congruence|]. destruct P2 as [[= <- <-]|P2]; [congruence|].
          apply (i_uniq0 c1 c2 p1 p2 i); try easy; apply key_del; (split; [easy|]); intros ->; [apply in_key in P1|apply in_key in P2]; easy.
        - intros h' k K. destruct (i_d3 h' k K) as [Q|Q]; [left; now apply in_del in Q|now right].
        - intros h' k K. destruct (N.eq_dec k c) as [->|M]; [assert (X := nodup_in _ _ _ _ N C K); discriminate|]. apply i_d4. now apply in_del. }
      unfold Inv. fold (mine c h s). destruct (mine c h s); cbn; match goal with |- context [if ?b then _ else _] => destruct b end; cbn; now apply G.
  Qed.

  (** Changes of a peer *)
  Lemma upd_inv c f s : (forall p, p_addr (f p) = p_addr p) -> (forall p, p_node (f p) = p_node p) -> (forall p, p_sync p = true -> p_sync (f p) = true) ->
    Inv s -> Inv (set_peers (upd c f (peers s)) s).
  Proof.
    intros A B C H. destruct H. constructor; cbn; rewrite ?keys_upd; try assumption.
    - rewrite i_addr0. unfold upd. rewrite map_map. apply map_ext. intros [k p]. cbn. destruct (k =? c); cbn; now rewrite ?A.
    - intros k K. destruct (i_sync0 k K) as [p [P1 P2]]. destruct (N.eq_dec k c) as [->|M].
      + exists (f p). split; [apply in_upd; right; split; [easy|now exists p]|now apply C].
      + exists p. split; [apply in_upd; now left|easy].
    - assert (L : forall k q, In (k, q) (upd c f (peers s)) -> exists p, In (k, p) (peers s) /\ p_node p = p_node q).
      { intros k q Q. apply in_upd in Q. destruct Q as [[_ Q]|[-> [w [-> Q]]]]; [now exists q|exists w; now rewrite B]. }
      intros c1 c2 p1 p2 i K1 K2 P1 P2 E1 E2. destruct (L _ _ P1) as [q1 [Q1 F1]], (L _ _ P2) as [q2 [Q2 F2]]. apply (i_uniq0 c1 c2 q1 q2 i); try easy; congruence.
  Qed.

  Lemma replace_spec i s :
    let s' := replace i s in (Inv s -> Inv s') /\ same_but_conns s s' /\ (forall c p, In (c, p) (peers s) -> p_node p = Some i -> ~ In c (map fst (conns s')))
    /\ (forall c x, In (c, x) (conns s) -> (forall p, In (c, p) (peers s) -> p_node p <> Some i) -> In (c, x) (conns s')).
  Proof.
    set (f := fun e : N * peer => match p_node (snd e) with Some j => j =? i | None => false end).
    assert (E : replace i s = fold_left (fun s e => if f e then disconnect (fst e) s else s) (peers s) s).
    { unfold replace. generalize s at 2 4. generalize (peers s). induction l as [|e r IH]; cbn; intros s0; [easy|]. rewrite IH. f_equal. unfold f. now destruct (p_node (snd e)). }
    cbn. rewrite E. destruct (fold_disc f fst (peers s) s) as (A1 & A2 & A3 & A4). split; [easy|split; [easy|split]].
    - intros c p H Q. apply (A3 (c, p) H). unfold f. cbn. now rewrite Q, N.eqb_refl.
    - intros c x H Q. apply A4; [easy|]. intros [k p] H1 H2. cbn. intros ->. unfold f in H2. cbn in H2. destruct (p_node p) as [j|] eqn:F; [|easy]. apply N.eqb_eq in H2. subst. now apply (Q p).
  Qed.

  Lemma on_return_inv now c a s : Inv s -> Inv (on_return now c a s).
  Proof.
    intros H0. unfold PrsModel.on_return.
    set (s1 := set_peers (upd c (set_last now) (peers s)) s). assert (H : Inv s1) by now apply upd_inv. clearbody s1.
    destruct a as [i|i v f|key sig|l|v|h|id h| |].
    - destruct (i =? my_id); [|easy]. apply disconnect_inv. destruct (get c (peers s1)); exact H.
    - destruct (get c (peers s1)) as [p|]; [|easy]. assert (Q : Inv (set_peers (upd c (set_info i v f) (peers s1)) s1)) by now apply upd_inv. destruct (103 <=? v); exact Q.
    - destruct (get c (peers s1)) as [p|] eqn:G; [|easy]. destruct (_ && _); [|now apply disconnect_inv].
      destruct (replace_spec (addr_of key) s1) as (A1 & A2 & A3 & _). specialize (A1 H). set (s2 := replace (addr_of key) s1) in *. clearbody s2.
      assert (A4 : peers s2 = peers s1) by apply A2. rewrite <- A4 in A3. clear A2 G A4 H s1. destruct A1. constructor; cbn; rewrite ?keys_upd; try assumption.
      + rewrite i_addr0. unfold upd. rewrite map_map. apply map_ext. intros [k q]. cbn. destruct (k =? c); now cbn.
      + intros k K. destruct (i_sync0 k K) as [q [P1 P2]]. destruct (N.eq_dec k c) as [->|M].
        * exists (set_node (addr_of key) q). split; [apply in_upd; right; split; [easy|now exists q]|easy].
        * exists q. split; [apply in_upd; now left|easy].
      + intros c1 c2 p1 p2 i K1 K2 P1 P2 E1 E2. apply in_upd in P1, P2. destruct P1 as [[N1 P1]|[-> [q1 [-> P1]]]], P2 as [[N2 P2]|[-> [q2 [-> P2]]]]; try easy.
        * now apply (i_uniq0 c1 c2 p1 p2 i).
        * cbn in E2. injection E2 as <-. now apply (A3 c1 p1) in K1.
        * cbn in E1. injection E1 as <-. now apply (A3 c2 p2) in K2.
    - exact H.
    - destruct (get c (peers s1)) as [p|] eqn:G; [|easy]. apply get_in in G. destruct v as [h|].
      + assert (Q : Inv (set_peers (upd c (fun p => set_sync true (set_height h p)) (peers s1)) s1)) by now apply upd_inv.
        destruct (p_full p); [|exact Q]. destruct Q. constructor; cbn in *; try assumption. intros k [<-|K]; [|apply in_nrem in K; now apply i_sync0].
        exists (set_sync true (set_height h p)). split; [|easy]. apply in_upd. right. split; [easy|]. now exists p.
      + destruct H. constructor; cbn; rewrite ?keys_upd; try assumption.
        * rewrite i_addr0. unfold upd. rewrite map_map. apply map_ext. intros [k q]. cbn. destruct (k =? c); now cbn.
        * intros k K. apply in_nrem in K. destruct K as [K M]. destruct (i_sync0 k K) as [q [P1 P2]]. exists q. split; [apply in_upd; now left|easy].
        * assert (L : forall k q, In (k, q) (upd c (set_sync false) (peers s1)) -> exists p, In (k, p) (peers s1) /\ p_node p = p_node q).
          { intros k q Q. apply in_upd in Q. destruct Q as [[_ Q]|[-> [w [-> Q]]]]; [now exists q|now exists w]. }
          intros c1 c2 p1 p2 i K1 K2 P1 P2 E1 E2. destruct (L _ _ P1) as [q1 [Q1 F1]], (L _ _ P2) as [q2 [Q2 F2]]. apply (i_uniq0 c1 c2 q1 q2 i); try easy; congruence.
    - now apply upd_inv.
    - destruct (_ && _); [|easy]. destruct (get c (peers s1)) as [p|]; [|easy]. destruct (p_sync p); [now apply disconnect_inv|easy].
    - easy.
    - easy.
  Qed.

  Lemma ban_inv c s : Inv s -> Inv (ban_peer c s).
  Proof.
    intros H. unfold ban_peer. match goal with |- context [if ?b then _ else _] => destruct b end; cbn; destruct (get c (peers s)); try exact H; apply disconnect_inv; exact H.
  Qed.

  (** What connect() changes before it disconnects *)
  Definition same_but_dials (s s' : st) : Prop :=
    peers s' = peers s /\ addrs s' = addrs s /\ synced s' = synced s /\ known s' = known s /\ blocked s' = blocked s /\ selfs s' = selfs s /\ tasks s' = tasks s /\ check s' = check s
    /\ next s <= next s' /\ (forall x, In x (conns s) -> In x (conns s')) /\ (forall c h b, In (c, (h, b)) (conns s') -> ~ In (c, (h, b)) (conns s) -> b = false).
  Lemma sbd_refl s : same_but_dials s s.
  Proof. unfold same_but_dials. repeat split; auto; [lia|]. intros; easy. Qed.
  Lemma sbd_trans a b c : same_but_dials a b -> same_but_dials b c -> same_but_dials a c.
  Proof.
    unfold same_but_dials. intros (?&?&?&?&?&?&?&?&?&H1&H2) (?&?&?&?&?&?&?&?&?&K1&K2). repeat split; try congruence; try lia; auto.
    intros k h x Q1 Q2. destruct (in_dec (fun u v : N * (string * bool) => ltac:(repeat decide equality)) (k, (h, x)) (conns b)) as [Y|Y]; [now apply (H2 k h)|now apply (K2 k h)].
  Qed.
  Lemma connect_to_sbd h s : same_but_dials s (connect_to h s).
  Proof.
    unfold PrsModel.connect_to. destruct (sget h (dials s)); [apply sbd_refl|]. destruct (resolve h == ""); [apply sbd_refl|]. unfold same_but_dials. cbn. repeat split; auto; try lia.
    intros c h' b [[= <- <- <-]|Q]; easy.
  Qed.
  Lemma try_connect_sbd a s : same_but_dials s (try_connect a s).
  Proof. unfold PrsModel.try_connect. destruct (_ <=? _)%nat; [apply sbd_refl|]. apply (connect_to_sbd a s). Qed.
  Lemma try_host_st now rnd full h x : exists r, snd (try_host now rnd full h x) = set_retry r (snd x).
  Proof.
    assert (E : forall s, s = set_retry (retry s) s) by now intros []. unfold PrsModel.try_host. destruct x as [t s]. cbn [snd].
    destruct (negb (is_valid_address (resolve h))); [now exists (retry s)|]. match goal with |- context [if full && ?w then _ else _] => destruct (full && w) end.
    - cbn. destruct (sget (resolve h) (retry s)); [now exists (retry s)|eexists; reflexivity].
    - match goal with |- context [if ?b then _ else _] => destruct b end; now exists (retry s).
  Qed.
  Lemma try_hosts_st now rnd full l : forall x, exists r, snd (fold_left (fun x h => try_host now rnd full h x) l x) = set_retry r (snd x).
  Proof.
    induction l as [|h l IH]; intros x; cbn [fold_left].
    - exists (retry (snd x)). now destruct (snd x).
    - destruct (IH (try_host now rnd full h x)) as [r E]. destruct (try_host_st now rnd full h x) as [r' E']. exists r. rewrite E, E'. reflexivity.
  Qed.

  Lemma connect_inv now rnd sh shn s : Inv s -> Inv (connect now rnd sh shn s).
  Proof.
    intros H. unfold PrsModel.connect. set (s1 := fold_left _ (fixed cfg) s). assert (H1 : Inv s1).
    { unfold s1. apply (fold_inv Inv); [|easy]. intros s' h Q. destruct (existsb _ _); [easy|]. now apply connect_to_inv. }
    clearbody s1. destruct (fold_left _ (all_hosts cfg s1) ([], s1)) as [t s2] eqn:E. cbv zeta.
    destruct (try_hosts_st now rnd (num_out cfg <=? List.length (out_synced cfg s1))%nat (all_hosts cfg s1) ([], s1)) as [r F]. rewrite E in F. cbn [snd] in F. subst s2.
    apply fold_disconnect_inv, fold_disconnect_inv. apply (fold_inv Inv); [|exact H1]. intros s' a Q. unfold PrsModel.try_connect. destruct (2 * num_out cfg <=? List.length (dials s'))%nat; [exact Q|]. apply (connect_to_inv a) in Q. exact Q.
  Qed.

  Lemma step_inv s e : Inv s -> Inv (step s e).
  Proof.
    intros H. destruct e as [now e]. unfold PrsModel.step. cbn [fst snd]. destruct e as [c h chal|c chal|c|c a| | |rnd sh shn|a|id hash].
    - destruct (N.leb_spec (next s) c) as [L|]; [|easy]. destruct H.
      assert (F : ~ In c (map fst (conns s))) by (intros Q; apply i_cl0 in Q; lia).
      apply on_connect_inv; cbn [conns next peers addrs synced dials tasks set_next set_conns].
      + assert (E : del c ((c, (h, true)) :: conns s) = conns s). { unfold del. cbn. rewrite N.eqb_refl. cbn. now apply del_none. } rewrite E.
        assert (M : mine c h (set_next (c + 1) (set_conns ((c, (h, true)) :: conns s) s)) = false).
        { unfold mine. cbn. destruct (sget h (dials s)) as [c'|] eqn:G; [|easy]. apply sget_in, i_d3 in G. apply N.eqb_neq. intros ->.
          destruct G as [G|G]; [now apply in_key in G|]. apply in_key, i_task0 in G. lia. }
        rewrite M. constructor; try assumption.
        * intros k K. apply i_cl0 in K. lia.
        * intros k K. apply i_pl0 in K. lia.
        * intros k K. destruct (i_task0 k K). split; [lia|easy].
      + cbn. constructor; easy.
      + now left.
      + lia.
      + intros Q. apply i_pl0 in Q. lia.
      + intros Q. destruct (i_task0 c Q). lia.
      + easy.
    - destruct (get c (conns s)) as [[h [|]]|] eqn:G; try easy. apply get_in in G. destruct H.
      assert (P : ~ In c (map fst (peers s))).
      { intros Q. destruct (i_peer0 c Q) as [[h' K]|K]; [assert (X := nodup_in _ _ _ _ i_cn0 G K); discriminate|]. apply i_task0 in K. now apply in_key in G. }
      apply on_connect_inv; cbn [conns next peers addrs synced dials tasks set_next set_conns].
      + assert (E : del c ((c, (h, true)) :: del c (conns s)) = del c (conns s)). { unfold del at 1. cbn. rewrite N.eqb_refl. cbn. apply del_none. intros Q. apply key_del in Q; now destruct Q. } rewrite E.
        assert (M : mine c h (set_conns ((c, (h, true)) :: del c (conns s)) s) = true). { unfold mine. cbn. rewrite (in_sget h c _ i_dn0 (i_d4 _ _ G)). apply N.eqb_refl. }
        rewrite M. constructor; try assumption.
        * now apply nodup_filter_keys.
        * intros k K. apply key_del in K. now apply i_cl0.
        * intros k h' K. apply in_del in K. now apply (i_open0 k h').
        * intros k K. destruct (i_peer0 k K) as [[h' Q]|Q]; [left|now right]. exists h'. apply in_del. split; [easy|]. intros ->. easy.
        * intros k K. destruct (i_task0 k K). split; [easy|]. intros Q. apply key_del in Q; now destruct Q.
        * intros c1 c2 p1 p2 i K1 K2. apply key_del in K1, K2. now apply i_uniq0.
        * now apply snodup_sdel.
        * intros h' k K. apply in_sdel in K. destruct K as [K K2]. destruct (i_d3 h' k K) as [Q|Q]; [left|now right]. apply in_del. split; [easy|]. intros ->.
          assert (X := nodup_in _ _ _ _ i_cn0 G Q). congruence.
        * intros h' k K. apply in_del in K. destruct K as [K K2]. apply in_sdel. split; [now apply i_d4|]. intros ->. apply i_d4 in K. assert (X := snodup_in _ _ _ _ i_dn0 K (i_d4 _ _ G)). easy.
      + cbn [map fst]. constructor; [|now apply nodup_filter_keys]. intros Q. apply key_del in Q; now destruct Q.
      + now left.
      + apply i_cl0. now apply in_key in G.
      + easy.
      + intros Q. apply i_task0 in Q. now apply in_key in G.
      + easy.
    - now apply disconnect_inv.
    - now apply on_return_inv.
    - destruct (tasks s) as [|[c h] r] eqn:T; [easy|]. now apply run_task_inv.
    - apply (fold_inv Inv); [|easy]. intros s' k Q. destruct (timed_out cfg now (snd k)); [now apply disconnect_inv|easy].
    - now apply connect_inv.
    - unfold kick_peer. apply (fold_inv Inv); [|easy]. intros. now apply ban_inv.
    - exact H.
  Qed.

  Lemma run_inv kn bl l : Inv (run kn bl l).
  Proof. unfold PrsModel.run. apply (fold_inv Inv); [intros; now apply step_inv|apply start_inv]. Qed.

  (** How a step changes the peers *)
  Definition said (c : N) (e : event) (b : bool) : bool :=
    match e with Answer c' (Synced v) => if c' =? c then match v with Some _ => true | None => false end else b | _ => b end.
  Definition heard (c : N) (now : Z) (e : event) (t : Z) : Z := match e with Answer c' _ => if c' =? c then now else t | _ => t end.
  Definition kept (c : N) (p p' : peer) (now : Z) (e : event) : Prop := p_last p' = heard c now e (p_last p) /\
    p_chal p' = p_chal p /\ p_addr p' = p_addr p /\ p_host p' = p_host p /\ p_out p' = p_out p /\ p_since p' = p_since p /\ p_sync p' = said c e (p_sync p)
    /\ (p_node p' = p_node p \/ exists key sig, e = Answer c (Signed key sig) /\ p_node p' = Some (addr_of key) /\ verify key sig (p_chal p) = true).
  Lemma kept_refl c p now e : said c e (p_sync p) = p_sync p -> heard c now e (p_last p) = p_last p -> kept c p p now e.
  Proof. intros H H2. unfold kept. repeat split; auto. Qed.
  Definition fresh (s : st) (now : Z) (c : N) (p : peer) (e : event) : Prop :=
    begins e c (p_chal p) /\ p_sync p = false /\ p_node p = None /\ p_addr p = resolve (p_host p) /\ ~ In (p_addr p) (blocked s) /\ p_since p = now /\ p_last p = 0%Z.

  Lemma kick_peers a s : peers (kick_peer a s) = peers s.
  Proof.
    unfold kick_peer. apply (fold_inv (fun s' => peers s' = peers s)); [|easy]. intros s' c H. unfold ban_peer. match goal with |- context [if ?b then _ else _] => destruct b end; cbn; destruct (get c (peers s')); cbn; try easy;
      rewrite (proj1 (proj2 (disconnect_sbc _ _))); easy.
  Qed.
  Lemma update_peers now s : peers (update now s) = peers s.
  Proof. apply (fold_inv (fun s' => peers s' = peers s)); [|easy]. intros s' k Q. destruct (timed_out cfg now (snd k)); [|easy]. now rewrite (proj1 (proj2 (disconnect_sbc _ _))). Qed.

  (** The three parts of connect() *)
  Definition dialled (now : Z) (rnd : string -> Z) (sh : list string -> list string) (s : st) : st :=
    let s := fold_left (fun s h => if existsb (fun e => fst e == resolve h) (addrs s) then s else connect_to h s) (fixed cfg) s in
    let x := fold_left (fun x h => try_host now rnd (num_out cfg <=? List.length (out_synced cfg s))%nat h x) (all_hosts cfg s) ([], s) in
    fold_left (fun s a => try_connect a s) (get_subset sh (fst x) (N.of_nat (num_out cfg))) (snd x).
  Definition excess1 (shn : list N -> list N) (s : st) : list N :=
    let os := out_synced cfg s in get_subset shn os (N.of_nat (if (num_out cfg + 1 <? List.length os)%nat then (List.length os - num_out cfg)%nat else 0%nat)).
  Definition excess2 (now : Z) (shn : list N -> list N) (s : st) : list N :=
    let on := out_not_synced cfg now s in get_subset shn on (N.of_nat (if (num_out cfg <? List.length on)%nat then (List.length on - num_out cfg)%nat else 0%nat)).
  Lemma fixed_sbd l : forall s, same_but_dials s (fold_left (fun s h => if existsb (fun e => fst e == resolve h) (addrs s) then s else connect_to h s) l s).
  Proof.
    induction l as [|h l IH]; cbn; intros s; [apply sbd_refl|]. eapply sbd_trans; [|apply IH]. destruct (existsb _ _); [apply sbd_refl|apply connect_to_sbd].
  Qed.
  Lemma tries_sbd l : forall s, same_but_dials s (fold_left (fun s a => try_connect a s) l s).
  Proof. induction l as [|h l IH]; cbn; intros s; [apply sbd_refl|]. eapply sbd_trans; [|apply IH]. apply try_connect_sbd. Qed.
  Lemma connect_parts now rnd sh shn s :
    connect now rnd sh shn s = fold_left (fun s c => disconnect c s) (excess2 now shn s) (fold_left (fun s c => disconnect c s) (excess1 shn s) (dialled now rnd sh s)).
  Proof.
    unfold PrsModel.connect, dialled. set (s1 := fold_left _ (fixed cfg) s). assert (B : same_but_dials s s1) by apply fixed_sbd. clearbody s1. cbv zeta.
    assert (E1 : out_synced cfg s1 = out_synced cfg s) by (unfold out_synced, outbound; now rewrite (proj1 B)).
    assert (E2 : out_not_synced cfg now s1 = out_not_synced cfg now s) by (unfold out_not_synced, outbound; now rewrite (proj1 B)).
    unfold excess1, excess2. cbv zeta. rewrite <- E1, <- E2. now destruct (fold_left _ (all_hosts cfg s1) ([], s1)).
  Qed.
  Lemma dialled_sbd now rnd sh s : same_but_dials s (dialled now rnd sh s).
  Proof.
    unfold dialled. set (s1 := fold_left _ (fixed cfg) s). assert (B : same_but_dials s s1) by apply fixed_sbd. clearbody s1. cbv zeta.
    destruct (try_hosts_st now rnd (num_out cfg <=? List.length (out_synced cfg s1))%nat (all_hosts cfg s1) ([], s1)) as [r F]. rewrite F. cbn [snd].
    eapply sbd_trans; [exact B|]. eapply sbd_trans; [|apply tries_sbd]. apply (sbd_refl s1).
  Qed.
  Lemma discs_sbc l s : same_but_conns s (fold_left (fun s c => disconnect c s) l s).
  Proof. apply (fold_inv (same_but_conns s)); [|apply sbc_refl]. intros s' c H. eapply sbc_trans; [exact H|apply disconnect_sbc]. Qed.
  Lemma discs_gone l : forall s c, In c l -> ~ In c (map fst (conns (fold_left (fun s c => disconnect c s) l s))).
  Proof.
    induction l as [|x l IH]; cbn; intros s c; [easy|]. intros [->|H]; [|now apply IH]. intros Q. apply key_in in Q. destruct Q as [v Q]. apply discs_sbc, in_key in Q. now apply disconnect_gone in Q.
  Qed.
  Lemma connect_peers now rnd sh shn s : peers (connect now rnd sh shn s) = peers s /\ blocked (connect now rnd sh shn s) = blocked s.
  Proof.
    rewrite connect_parts. destruct (dialled_sbd now rnd sh s) as (A1&_&_&_&A2&_). set (d := dialled now rnd sh s) in *. clearbody d.
    destruct (discs_sbc (excess1 shn s) d) as (_&B1&_&_&_&_&_&B2&_). destruct (discs_sbc (excess2 now shn s) (fold_left (fun s c => disconnect c s) (excess1 shn s) d)) as (_&C1&_&_&_&_&_&C2&_).
    split; congruence.
  Qed.

  Lemma kept_upd c f a s now' (e := Answer c a) : (forall p, kept c p (f (set_last now' p)) now' e) -> (forall k p, k <> c -> said k e (p_sync p) = p_sync p) ->
    forall k p', In (k, p') (upd c f (upd c (set_last now') (peers s))) -> exists p, In (k, p) (peers s) /\ kept k p p' now' e.
  Proof.
    intros A B k p' H. apply in_upd in H. destruct H as [[N H]|[-> [w [-> H]]]].
    - apply in_upd in H. destruct H as [[_ H]|[-> _]]; [|easy]. exists p'. split; [easy|]. apply kept_refl; [now apply B|]. unfold heard, e. destruct (N.eqb_spec c k); [congruence|easy].
    - apply in_upd in H. destruct H as [[N _]|[_ [q [-> H]]]]; [easy|]. exists q. split; [easy|]. apply A.
  Qed.
  Lemma kept_last c a s now' (e := Answer c a) : (forall k p, said k e (p_sync p) = p_sync p) ->
    forall k p', In (k, p') (upd c (set_last now') (peers s)) -> exists p, In (k, p) (peers s) /\ kept k p p' now' e.
  Proof.
    intros B k p' H. apply in_upd in H. destruct H as [[N H]|[-> [q [-> H]]]].
    - exists p'. split; [easy|]. apply kept_refl; [apply B|]. unfold heard, e. destruct (N.eqb_spec c k); [congruence|easy].
    - exists q. split; [easy|]. assert (S := B c q). unfold kept, heard, e in *. rewrite N.eqb_refl. cbn [p_last p_chal p_addr p_host p_out p_since p_sync p_node set_last]. repeat split; auto.
  Qed.

  Lemma step_peers s now e c p' : Inv s -> In (c, p') (peers (step s (now, e))) -> fresh s now c p' e \/ exists p, In (c, p) (peers s) /\ kept c p p' now e.
  Proof.
    intros HI. unfold PrsModel.step. cbn [fst snd].
    assert (SAME : forall s', peers s' = peers s -> (forall b, said c e b = b) -> (forall t, heard c now e t = t) -> In (c, p') (peers s') -> fresh s now c p' e \/ exists p, In (c, p) (peers s) /\ kept c p p' now e).
    { intros s' E S S2 H. rewrite E in H. right. exists p'. split; [easy|]. now apply kept_refl. }
    assert (CONN : forall k h m s1, peers s1 = peers s -> blocked s1 = blocked s -> begins e k m -> In (c, p') (peers (on_connect now k h m s1)) -> fresh s now c p' e \/ exists p, In (c, p) (peers s) /\ kept c p p' now e).
    { intros k h m s1 E B G H. assert (S : (forall b, said c e b = b) /\ (forall t, heard c now e t = t)) by (destruct G as [[h' ->]| ->]; easy).
      unfold PrsModel.on_connect in H. destruct (smem (resolve h) (blocked s1)) eqn:M.
      - revert H. apply SAME; [|easy|easy]. now rewrite (proj1 (proj2 (disconnect_sbc _ _))).
      - assert (Q : (c = k /\ p' = mk_peer (resolve h) h m 0 0 true None (match sget h (dials s1) with Some c' => (c' =? k)%N | None => false end) false 0 now 0) \/ In (c, p') (peers s)).
        { revert H. destruct (match sget h (dials s1) with Some c' => (c' =? k)%N | None => false end); cbn; match goal with |- context [if ?b then _ else _] => destruct b end; cbn;
            (intros [H|H]; [injection H as <- <-; now left|right; apply in_del in H; now rewrite E in H]). }
        destruct Q as [[-> ->]|Q]; [left|right; exists p'; split; [easy|now apply kept_refl]].
        unfold fresh. cbn. repeat split; auto. rewrite <- B. intros K. apply smem_in in K. congruence. }
    destruct e as [k h chal|k chal|k|k a| | |rnd sh shn|a|id hash].
    - destruct (next s <=? k); [|now apply SAME]. apply CONN; try easy. left. now exists h.
    - destruct (get k (conns s)) as [[h [|]]|]; try (now apply SAME). apply CONN; try easy. now right.
    - apply SAME; [|easy|easy]. apply disconnect_sbc.
    - intros H. right. revert c p' H SAME CONN. intros c p' H _ _. unfold PrsModel.on_return in H.
      set (s1 := set_peers (upd k (set_last now) (peers s)) s) in *. assert (E1 : peers s1 = upd k (set_last now) (peers s)) by easy.
      assert (LAST : (forall k' p, said k' (Answer k a) (p_sync p) = p_sync p) -> In (c, p') (peers s1) -> exists p, In (c, p) (peers s) /\ kept c p p' now (Answer k a)) by (intros S Q; rewrite E1 in Q; now apply (kept_last k a s now S c p')).
      clearbody s1. destruct a as [i|i v f|key sig|l|v|h|id h| |]; try (now apply LAST).
      + apply LAST; [easy|]. destruct (i =? my_id); [|easy]. rewrite (proj1 (proj2 (disconnect_sbc _ _))) in H. now destruct (get k (peers s1)).
      + destruct (get k (peers s1)) as [p|]; [|now apply LAST]. assert (Q : In (c, p') (upd k (set_info i v f) (peers s1))) by (destruct (103 <=? v); exact H). rewrite E1 in Q.
        apply (kept_upd _ _ (Info i v f)) in Q; [easy| |easy]. intros p0. unfold kept, heard. cbn. rewrite ?N.eqb_refl. repeat split; auto.
      + destruct (get k (peers s1)) as [p|] eqn:G; [|now apply LAST]. destruct ((addr_of key =? p_id p) && verify key sig (p_chal p)) eqn:V.
        * cbn [peers set_peers] in H. destruct (replace_spec (addr_of key) s1) as (_ & A2 & _). rewrite (proj1 (proj2 A2)) in H. apply andb_prop in V. destruct V as [_ V].
          apply in_upd in H. destruct H as [[N H]|[-> [w [-> H]]]].
          -- rewrite E1 in H. now apply (kept_last k (Signed key sig) s now) in H.
          -- apply get_in in G. assert (N : NoDup (map fst (peers s1))) by (rewrite E1, keys_upd; apply HI). assert (X := nodup_in _ _ _ _ N G H). subst w.
             rewrite E1 in H. apply in_upd in H. destruct H as [[M _]|[_ [q [-> H]]]]; [easy|]. exists q. split; [easy|]. unfold kept, heard. cbn. rewrite ?N.eqb_refl. repeat split; auto. right. now exists key, sig.
        * apply LAST; [easy|]. now rewrite (proj1 (proj2 (disconnect_sbc _ _))) in H.
      + destruct (get k (peers s1)) as [p|] eqn:G.
        * assert (X : exists f, (forall q, kept k q (f (set_last now q)) now (Answer k (Synced v))) /\ In (c, p') (upd k f (peers s1))).
          { destruct v as [h|].
            - exists (fun p => set_sync true (set_height h p)). split; [|destruct (p_full p); exact H]. intros q. unfold kept, heard. cbn. rewrite N.eqb_refl. repeat split; auto.
            - exists (set_sync false). split; [|exact H]. intros q. unfold kept, heard. cbn. rewrite N.eqb_refl. repeat split; auto. }
          destruct X as [f [F Q]]. rewrite E1 in Q. apply (kept_upd _ _ (Synced v)) in Q; [easy|easy|]. intros k' q N. cbn. destruct (N.eqb_spec k k'); [congruence|easy].
        * apply get_none in G. rewrite E1, keys_upd in G. rewrite E1 in H. apply in_upd in H. destruct H as [[N H]|[-> [q [-> H]]]]; [|now apply in_key in H].
          exists p'. split; [easy|]. apply kept_refl; cbn; (destruct (N.eqb_spec k c); [congruence|easy]).
      + cbn [peers set_peers] in H. rewrite E1 in H. apply (kept_upd _ _ (Height h)) in H; [easy| |easy]. intros q. unfold kept, heard. cbn. rewrite ?N.eqb_refl. repeat split; auto.
      + apply LAST; [easy|]. destruct (_ && _); [|easy]. destruct (get k (peers s1)) as [p|]; [|easy]. destruct (p_sync p); [|easy]. now rewrite (proj1 (proj2 (disconnect_sbc _ _))) in H.
    - destruct (tasks s) as [|[k h] r]; [now apply SAME|]. intros H. right. exists p'. split; [|now apply kept_refl].
      assert (Q : In (c, p') (del k (peers s))). { revert H. unfold PrsModel.run_task. cbn. destruct (get k (peers s)); cbn; destruct (sget h (dials s)) as [c'|]; cbn; try destruct (c' =? k); easy. }
      now apply in_del in Q.
    - apply SAME; [apply update_peers|easy|easy].
    - apply SAME; [apply connect_peers|easy|easy].
    - apply SAME; [apply kick_peers|easy|easy].
    - now apply SAME.
  Qed.

  Lemma run_snoc kn bl l e : run kn bl (l ++ [e]) = step (run kn bl l) e.
  Proof. unfold PrsModel.run. now rewrite fold_left_app. Qed.
  Lemma said_snoc c l e : said_synced c (l ++ [e]) = said c (snd e) (said_synced c l).
  Proof. unfold said_synced. now rewrite fold_left_app. Qed.

  Lemma history kn bl l : forall c p, In (c, p) (peers (run kn bl l)) -> exists post, since c (p_chal p) (p_since p) l post /\ p_sync p = said_synced c post /\ p_last p = last_heard c post /\ p_addr p = resolve (p_host p)
    /\ forall i, p_node p = Some i -> exists now key sig, In (now, Answer c (Signed key sig)) post /\ addr_of key = i /\ verify key sig (p_chal p) = true.
  Proof.
    induction l as [|[now e] l IH] using rev_ind; [easy|]. intros c p' H. rewrite run_snoc in H. apply step_peers in H; [|apply run_inv].
    destruct H as [F|[p [H K]]].
    - destruct F as (F1 & F2 & F3 & F4 & F5 & F6 & F7). exists []. split; [exists l, e; now rewrite F6|]. split; [easy|]. split; [easy|]. split; [easy|]. intros i E. congruence.
    - destruct (IH c p H) as (post & S & Y & Z1 & Z2 & O). destruct K as (K0 & K1 & K2 & K3 & K4 & K5 & K6 & K7). exists (post ++ [(now, e)]). rewrite K1, K5. split; [|split; [|split; [|split]]].
      + destruct S as (pre & e0 & -> & B). exists pre, e0. split; [|easy]. now rewrite <- app_assoc.
      + rewrite said_snoc, K6, Y. reflexivity.
      + rewrite K0, Z1. unfold last_heard. now rewrite fold_left_app.
      + congruence.
      + intros i E. destruct K7 as [K7|(key & sig & -> & K7 & K8)].
        * rewrite K7 in E. destruct (O i E) as (t & key & sig & A & B). exists t, key, sig. split; [apply in_or_app; now left|easy].
        * exists now, key, sig. split; [apply in_or_app; right; now left|]. split; [congruence|easy].
  Qed.

  (** Open connections *)
  Lemma step_conns s e c h : Inv s -> In (c, (h, true)) (conns (step s e)) -> In (c, (h, true)) (conns s) \/ ~ In c (map fst (peers s)).
  Proof.
    intros HI H. destruct e as [now e]. unfold PrsModel.step in H. cbn [fst snd] in H.
    assert (DISC : forall s', same_but_conns s s' -> In (c, (h, true)) (conns s') -> In (c, (h, true)) (conns s) \/ ~ In c (map fst (peers s))) by (intros s' B Q; left; now apply B).
    assert (CONN : forall k h' m s1 x, conns s1 = (k, (h', true)) :: x -> (forall y, In y x -> In y (conns s)) -> ~ In k (map fst (peers s)) ->
      In (c, (h, true)) (conns (on_connect now k h' m s1)) -> In (c, (h, true)) (conns s) \/ ~ In c (map fst (peers s))).
    { intros k h' m s1 x E X F Q. assert (Y : In (c, (h, true)) (conns s1)).
      { unfold PrsModel.on_connect in Q. destruct (smem (resolve h') (blocked s1)); [now apply disconnect_sbc in Q|]. revert Q.
        destruct (match sget h' (dials s1) with Some c' => (c' =? k)%N | None => false end); cbn; match goal with |- context [if ?b then _ else _] => destruct b end; cbn; easy. }
      rewrite E in Y. destruct Y as [[= -> ->]|Y]; [now right|left; now apply X]. }
    destruct e as [k h' chal|k chal|k|k a| | |rnd sh shn|a|id hash].
    - destruct (N.leb_spec (next s) k) as [L|]; [|now left]. refine (CONN k h' chal _ (conns s) _ _ _ H); [reflexivity|easy|]. intros Q. apply (i_pl _ _ _ _ _ _ _ HI) in Q. lia.
    - destruct (get k (conns s)) as [[h' [|]]|] eqn:G; try (now left). refine (CONN k h' chal _ (del k (conns s)) _ _ _ H); [reflexivity| |].
      + intros [y1 y2] Y. now apply in_del in Y.
      + apply get_in in G. intros Q. destruct (i_peer _ _ _ _ _ _ _ HI k Q) as [[h'' K]|K]; [assert (X := nodup_in _ _ _ _ (i_cn _ _ _ _ _ _ _ HI) G K); discriminate|].
        apply (i_task _ _ _ _ _ _ _ HI) in K. now apply in_key in G.
    - apply (DISC _ (disconnect_sbc k s) H).
    - left. revert H. unfold PrsModel.on_return. set (s1 := set_peers (upd k (set_last now) (peers s)) s). assert (E : conns s1 = conns s) by easy. rewrite <- E. clearbody s1.
      destruct a as [i|i v f|key sig|l|v|x|id x| |]; try easy.
      + destruct (i =? my_id); [|easy]. intros Q. apply disconnect_sbc in Q. now destruct (get k (peers s1)).
      + destruct (get k (peers s1)); [|easy]. now destruct (103 <=? v).
      + destruct (get k (peers s1)); [|easy]. destruct (_ && _); [|intros Q; now apply disconnect_sbc in Q]. cbn. destruct (replace_spec (addr_of key) s1) as (_ & A & _). apply A.
      + destruct (get k (peers s1)) as [p|]; [|easy]. destruct v; [|easy]. now destruct (p_full p).
      + destruct (_ && _); [|easy]. destruct (get k (peers s1)) as [p|]; [|easy]. destruct (p_sync p); [|easy]. intros Q. now apply disconnect_sbc in Q.
    - left. destruct (tasks s) as [|[k h'] r]; [easy|]. revert H. unfold PrsModel.run_task. cbn. destruct (get k (peers s)); cbn; destruct (sget h' (dials s)) as [c'|]; cbn; try destruct (c' =? k); easy.
    - left. destruct (fold_disc (fun e => timed_out cfg now (snd e)) fst (peers s) s) as (_ & A & _). now apply A.
    - left. rewrite connect_parts in H. apply discs_sbc, discs_sbc in H. destruct (dialled_sbd now rnd sh s) as (_&_&_&_&_&_&_&_&_&_&B).
      destruct (in_dec (fun u v : N * (string * bool) => ltac:(repeat decide equality)) (c, (h, true)) (conns s)) as [Y|Y]; [easy|]. now apply B in H.
    - left. revert H. unfold kick_peer. apply (fold_inv (fun s' => In (c, (h, true)) (conns s') -> In (c, (h, true)) (conns s))); [|easy]. intros s' k Q. unfold ban_peer.
      match goal with |- context [if ?b then _ else _] => destruct b end; cbn; destruct (get k (peers s')); try easy; intros K; apply disconnect_sbc in K; now apply Q.
    - now left.
  Qed.

  (** Bans *)
  Definition small (n : nat) : Prop := N.of_nat n < 1000000.
  Lemma ban_list a cs : forall s, small (S (List.length (blocked s))) -> (In a (blocked s) \/ small (S (S (List.length (blocked s))))) -> NoDup (map fst (peers s)) ->
    (forall c, In c cs -> exists p, In (c, p) (peers s) /\ p_addr p = a) ->
    let s' := fold_left (fun s c => ban_peer c s) cs s in
    (forall x, In x (blocked s) -> In x (blocked s')) /\ (List.length (blocked s') <= S (List.length (blocked s)))%nat /\ (In a (blocked s) -> List.length (blocked s') = List.length (blocked s))
    /\ (forall c, In c cs -> In a (blocked s') /\ ~ In c (map fst (conns s'))) /\ (forall x, In x (conns s') -> In x (conns s)).
  Proof.
    induction cs as [|c cs IH]; cbn; intros s B1 B2 N A; [repeat split; auto; lia|].
    assert (E : ban_peer c s = disconnect c (set_blocked (sins a (blocked s)) s)).
    { unfold ban_peer. destruct (N.leb_spec 1000000 (N.of_nat (List.length (blocked s)))) as [L|_]; [unfold small in B1; lia|]. destruct (A c) as [p [P1 P2]]; [now left|]. now rewrite (in_get _ _ _ N P1), P2. }
    rewrite E. set (s1 := disconnect c _). assert (F := disconnect_sbc c (set_blocked (sins a (blocked s)) s)). fold s1 in F. destruct F as (_&F1&_&_&_&_&_&F2&_&_&_&F3). cbn in F1, F2, F3.
    assert (L : (List.length (blocked s1) <= S (List.length (blocked s)))%nat) by (rewrite F2; apply len_sins).
    assert (M : In a (blocked s1)) by (rewrite F2; apply in_sins; now left).
    assert (L2 : In a (blocked s) -> List.length (blocked s1) = List.length (blocked s)) by (intros Q; rewrite F2; unfold sins; apply smem_in in Q; now rewrite Q).
    assert (SM : small (S (List.length (blocked s1)))) by (destruct B2 as [Q|Q]; [now rewrite (L2 Q)|unfold small in *; lia]).
    destruct (IH s1 SM (or_introl M)) as (G1 & G2 & G3 & G4 & G5).
    { now rewrite F1. } { rewrite F1. intros k K. apply A. now right. }
    repeat split.
    - intros x Q. apply G1. rewrite F2. apply in_sins. now right.
    - rewrite (G3 M). easy.
    - intros Q. now rewrite (G3 M), (L2 Q).
    - now apply G1.
    - destruct H as [<-|H]; [|now apply G4]. intros Q. apply key_in in Q. destruct Q as [v Q]. apply G5, in_key in Q. now apply disconnect_gone in Q.
    - intros x Q. apply F3. now apply G5.
  Qed.

  Lemma found a s c : Inv s -> In c (find_peers a s) <-> exists p, In (c, p) (peers s) /\ p_addr p = a.
  Proof.
    intros H. unfold find_peers. rewrite (i_addr _ _ _ _ _ _ _ H), in_map_iff. split.
    - intros [[x k] [<- Q]]. apply filter_In in Q. destruct Q as [Q1 Q2]. apply in_map_iff in Q1. destruct Q1 as [[k' p] [[= <- <-] Q1]]. cbn in *. apply String.eqb_eq in Q2. now exists p.
    - intros [p [P1 P2]]. exists (a, c). split; [easy|]. apply filter_In. cbn. rewrite String.eqb_refl. split; [|easy]. apply in_map_iff. exists (c, p). cbn. now rewrite P2.
  Qed.

  Lemma kick_spec a s : Inv s -> small (S (S (List.length (blocked s)))) ->
    let s' := kick_peer a s in (forall x, In x (blocked s) -> In x (blocked s')) /\ (List.length (blocked s') <= S (List.length (blocked s)))%nat
    /\ (forall c p, In (c, p) (peers s) -> p_addr p = a -> In a (blocked s') /\ ~ In c (map fst (conns s'))).
  Proof.
    intros H B. destruct (ban_list a (find_peers a s) s) as (G1 & G2 & _ & G4 & _).
    - unfold small in *; lia.
    - now right.
    - apply H.
    - intros c Q. now apply found in Q.
    - split; [exact G1|]. split; [exact G2|]. intros c p P1 P2. apply G4. apply found; [easy|]. now exists p.
  Qed.

  Lemma step_blocked s e : Inv s -> small (List.length (blocked s) + S (kicks [e])) ->
    (forall x, In x (blocked s) -> In x (blocked (step s e))) /\ (List.length (blocked (step s e)) <= List.length (blocked s) + kicks [e])%nat.
  Proof.
    intros HI B. destruct e as [now e].
    assert (SAME : forall s', blocked s' = blocked s -> (forall x, In x (blocked s) -> In x (blocked s')) /\ (List.length (blocked s') <= List.length (blocked s) + kicks [(now, e)])%nat) by (intros s' ->; split; [auto|lia]).
    assert (DISC : forall c s', blocked s' = blocked s -> blocked (disconnect c s') = blocked s) by (intros c s' Q; destruct (disconnect_sbc c s') as (_&_&_&_&_&_&_&K&_); congruence).
    assert (CONN : forall k h m s1, blocked s1 = blocked s -> blocked (on_connect now k h m s1) = blocked s).
    { intros k h m s1 E. unfold PrsModel.on_connect. destruct (smem (resolve h) (blocked s1)); [now apply DISC|].
      destruct (match sget h (dials s1) with Some c' => (c' =? k)%N | None => false end); cbn; match goal with |- context [if ?b then _ else _] => destruct b end; easy. }
    unfold PrsModel.step. cbn [fst snd]. destruct e as [k h' chal|k chal|k|k a| | |rnd sh shn|a|id hash].
    - apply SAME. destruct (next s <=? k); [now apply CONN|easy].
    - apply SAME. destruct (get k (conns s)) as [[h' [|]]|]; try easy. now apply CONN.
    - apply SAME. now apply DISC.
    - apply SAME. unfold PrsModel.on_return. set (s1 := set_peers (upd k (set_last now) (peers s)) s). assert (E : blocked s1 = blocked s) by easy. clearbody s1.
      destruct a as [i|i v f|key sig|l|v|x|id x| |]; try easy.
      + destruct (i =? my_id); [|easy]. apply DISC. now destruct (get k (peers s1)).
      + destruct (get k (peers s1)); [|easy]. now destruct (103 <=? v).
      + destruct (get k (peers s1)); [|easy]. destruct (_ && _); [|now apply DISC]. cbn. destruct (replace_spec (addr_of key) s1) as (_ & (_&_&_&_&_&_&_&A&_) & _). congruence.
      + destruct (get k (peers s1)) as [p|]; [|easy]. destruct v; [|easy]. now destruct (p_full p).
      + destruct (_ && _); [|easy]. destruct (get k (peers s1)) as [p|]; [|easy]. destruct (p_sync p); [|easy]. now apply DISC.
    - apply SAME. destruct (tasks s) as [|[k h'] r]; [easy|]. unfold PrsModel.run_task. cbn. destruct (get k (peers s)); cbn; destruct (sget h' (dials s)) as [c'|]; cbn; try destruct (c' =? k); easy.
    - apply SAME. destruct (fold_disc (fun e => timed_out cfg now (snd e)) fst (peers s) s) as (_ & (_&_&_&_&_&_&_&A&_) & _). exact A.
    - apply SAME. apply connect_peers.
    - unfold kicks in *. cbn in B |- *. destruct (kick_spec a s HI) as (G1 & G2 & _); [unfold small in *; lia|]. split; [easy|lia].
    - now apply SAME.
  Qed.

  Lemma step_banned s e a : Inv s -> small (List.length (blocked s) + S (kicks [e])) -> banned s a -> banned (step s e) a.
  Proof.
    intros HI B [H1 H2]. destruct (step_blocked s e HI B) as [K1 _]. split; [now apply K1|]. intros c p' [h O] P E. destruct e as [now e].
    assert (SC := step_conns _ _ _ _ HI O). apply step_peers in P; [|easy]. destruct P as [F|[p [P K]]].
    - destruct F as (_ & _ & _ & _ & F & _). rewrite E in F. easy.
    - destruct K as (_ & _ & K & _). destruct SC as [Q|Q]; [|now apply in_key in P]. apply (H2 c p); [now exists h|easy|congruence].
  Qed.

  Lemma run_banned a l : forall s, Inv s -> small (S (List.length (blocked s) + kicks l)) -> banned s a -> banned (fold_left step l s) a.
  Proof.
    induction l as [|e l IH]; cbn [fold_left]; intros s HI B H; [easy|]. assert (K : kicks (e :: l) = (kicks [e] + kicks l)%nat) by (unfold kicks; cbn; destruct (match snd e with Kick _ => true | _ => false end); easy).
    rewrite K in B. assert (B1 : small (List.length (blocked s) + S (kicks [e]))) by (unfold small in *; lia). destruct (step_blocked s e HI B1) as [_ L].
    apply IH; [now apply step_inv|unfold small in *; lia|now apply step_banned].
  Qed.


  (** Whom connect() dials *)
  Lemma connect_to_new h0 s c h b : In (c, (h, b)) (conns (connect_to h0 s)) -> In (c, (h, b)) (conns s) \/ (h = h0 /\ b = false).
  Proof.
    unfold PrsModel.connect_to. destruct (sget h0 (dials s)); [now left|]. destruct (resolve h0 == ""); [now left|]. cbn. intros [[= <- <- <-]|Q]; [now right|now left].
  Qed.
  Lemma fixed_new l : forall s c h b, In (c, (h, b)) (conns (fold_left (fun s h => if existsb (fun e => fst e == resolve h) (addrs s) then s else connect_to h s) l s)) ->
    In (c, (h, b)) (conns s) \/ In h l.
  Proof.
    induction l as [|x l IH]; cbn; intros s c h b H; [now left|]. apply IH in H. destruct H as [H|H]; [|right; now right].
    destruct (existsb _ _); [now left|]. apply connect_to_new in H. destruct H as [H|[-> _]]; [now left|right; now left].
  Qed.
  Lemma tries_new l : forall s c h b, In (c, (h, b)) (conns (fold_left (fun s a => try_connect a s) l s)) -> In (c, (h, b)) (conns s) \/ In h l.
  Proof.
    induction l as [|x l IH]; cbn [fold_left]; intros s c h b H; [now left|]. apply IH in H. destruct H as [H|H]; [|right; now right].
    unfold PrsModel.try_connect in H. destruct (_ <=? _)%nat; [now left|]. apply (connect_to_new x s) in H. destruct H as [H|[-> _]]; [now left|right; now left].
  Qed.
  Definition eligible (s : st) (h a : string) : Prop :=
    a = resolve h /\ is_valid_address a = true /\ ~ In a (map fst (addrs s)) /\ ~ In a (blocked s) /\ ~ In h (blocked s) /\ ~ In a (selfs s) /\ ~ In h (selfs s).
  Lemma try_host_new now rnd full h x a : In a (fst (try_host now rnd full h x)) -> In a (fst x) \/ eligible (snd x) h a.
  Proof.
    destruct x as [t s]. unfold PrsModel.try_host. cbn [fst snd]. destruct (is_valid_address (resolve h)) eqn:V; cbn [negb]; [|now left].
    match goal with |- context [if full && ?w then _ else _] => destruct (full && w) end; [now left|].
    match goal with |- context [if ?b then _ else _] => destruct b eqn:E end; [now left|]. cbn [fst]. intros H. apply in_sins in H. destruct H as [->|H]; [|now left]. right.
    repeat (apply orb_false_elim in E; destruct E as [E ?]). unfold eligible.
    assert (M : forall x l, smem x l = false -> ~ In x l) by (intros x l Q K; apply smem_in in K; congruence). repeat split; auto.
    intros K. apply in_map_iff in K. destruct K as [[a c] [K1 K2]]. cbn in K1. subst a. assert (Q : existsb (fun e : string * N => fst e == resolve h) (addrs s) = true).
    { apply existsb_exists. exists (resolve h, c). split; [easy|]. apply String.eqb_refl. } congruence.
  Qed.
  Lemma try_hosts_new now rnd full l : forall x a, In a (fst (fold_left (fun x h => try_host now rnd full h x) l x)) -> In a (fst x) \/ exists h, In h l /\ eligible (snd x) h a.
  Proof.
    induction l as [|h l IH]; cbn [fold_left]; intros x a H; [now left|]. apply IH in H. destruct (try_host_st now rnd full h x) as [r E]. rewrite E in H.
    destruct H as [H|[h' [H1 H2]]]; [|right; exists h'; split; [now right|exact H2]]. apply try_host_new in H. destruct H as [H|H]; [now left|right; exists h; split; [now left|easy]].
  Qed.
  Lemma subset_in {A} (f : list A -> list A) l n x : (forall l, Permutation l (f l)) -> In x (get_subset f l n) -> In x l.
  Proof.
    intros P. unfold get_subset. destruct (n <? _); [|easy]. intros H. apply (Permutation_in _ (Permutation_sym (P l))). rewrite <- (firstn_skipn (N.to_nat n) (f l)). apply in_or_app. now left.
  Qed.

  Lemma connect_new now rnd sh shn s c h b : (forall l, Permutation l (sh l)) -> In (c, (h, b)) (conns (connect now rnd sh shn s)) -> ~ In (c, (h, b)) (conns s) ->
    b = false /\ (In h (fixed cfg) \/ exists h0, (In h0 (known s) \/ In h0 (map fst (retry s)) \/ In h0 (seeds cfg)) /\ eligible s h0 h).
  Proof.
    intros P H O. rewrite connect_parts in H. apply discs_sbc, discs_sbc in H. split; [now apply (dialled_sbd now rnd sh s) in H|]. unfold dialled in H.
    set (s1 := fold_left _ (fixed cfg) s) in *. assert (B : same_but_dials s s1) by apply fixed_sbd. assert (F := fixed_new (fixed cfg) s c h b). fold s1 in F.
    assert (R : retry s1 = retry s). { unfold s1. apply (fold_inv (fun s' => retry s' = retry s)); [|easy]. intros s' x Q. destruct (existsb _ _); [easy|]. unfold PrsModel.connect_to. destruct (sget x (dials s')); [easy|]. now destruct (resolve x == ""). }
    clearbody s1. cbv zeta in H. destruct B as (B1&B2&_&B4&B5&B6&_).
    apply tries_new in H. destruct H as [H|H].
    - destruct (try_hosts_st now rnd (num_out cfg <=? List.length (out_synced cfg s1))%nat (all_hosts cfg s1) ([], s1)) as [r E]. rewrite E in H. cbn in H. destruct (F H); [easy|now left].
    - right. apply subset_in in H; [|easy]. apply try_hosts_new in H. destruct H as [[]|[h0 [H1 H2]]]. exists h0. unfold all_hosts in H1. apply in_all in H1. destruct H1 as [[]|H1].
      rewrite !in_app_iff, R, B4 in H1. split; [easy|]. cbn [snd] in H2. unfold eligible in *. now rewrite B2, B5, B6 in H2.
  Qed.

  (** How many are dialled *)
  Definition others (s : st) : list (string * N) := filter (fun e => negb (smem (fst e) (fixed cfg))) (dials s).
  Lemma len_filter {A} (f : A -> bool) l : (List.length (filter f l) <= List.length l)%nat.
  Proof. induction l as [|x l IH]; cbn; [lia|]. destruct (f x); cbn; lia. Qed.
  Lemma filter_filter_le {A} (f g : A -> bool) l : (List.length (filter f (filter g l)) <= List.length (filter f l))%nat.
  Proof. induction l as [|x l IH]; cbn; [lia|]. destruct (g x), (f x) eqn:E; cbn; rewrite ?E; cbn; lia. Qed.
  Lemma others_connect_to h s : (List.length (others (connect_to h s)) <= List.length (others s) + (if smem h (fixed cfg) then 0 else 1))%nat.
  Proof. unfold PrsModel.connect_to, others. destruct (sget h (dials s)); [lia|]. destruct (resolve h == ""); [lia|]. cbn. destruct (smem h (fixed cfg)); cbn; lia. Qed.
  Lemma others_try a s : (List.length (others s) <= 2 * num_out cfg)%nat -> (List.length (others (try_connect a s)) <= 2 * num_out cfg)%nat.
  Proof.
    intros H. unfold PrsModel.try_connect. destruct (Nat.leb_spec (2 * num_out cfg) (List.length (dials s))) as [|L]; [easy|]. assert (Q := others_connect_to a s).
    assert (K := len_filter (fun e : string * N => negb (smem (fst e) (fixed cfg))) (dials s)). fold (others s) in K. unfold others in *. cbn [dials set_retry]. destruct (smem a (fixed cfg)); lia.
  Qed.
  Lemma others_same s s' : dials s' = dials s -> others s' = others s.
  Proof. unfold others. now intros ->. Qed.
  Lemma others_del s s' h : dials s' = sdel h (dials s) -> (List.length (others s') <= List.length (others s))%nat.
  Proof. unfold others. intros ->. apply filter_filter_le. Qed.

  Lemma step_others s e : (List.length (others s) <= 2 * num_out cfg)%nat -> (List.length (others (step s e)) <= 2 * num_out cfg)%nat.
  Proof.
    intros H. destruct e as [now e].
    assert (SAME : forall s', dials s' = dials s -> (List.length (others s') <= 2 * num_out cfg)%nat) by (intros s' E; now rewrite (others_same s s' E)).
    assert (DISC : forall c s', dials s' = dials s -> dials (disconnect c s') = dials s) by (intros c s' Q; destruct (disconnect_sbc c s') as (_&_&_&_&K&_); congruence).
    assert (CONN : forall k h m s1, dials s1 = dials s -> (List.length (others (on_connect now k h m s1)) <= 2 * num_out cfg)%nat).
    { intros k h m s1 E. unfold PrsModel.on_connect. destruct (smem (resolve h) (blocked s1)); [now apply SAME, DISC|].
      destruct (match sget h (dials s1) with Some c' => (c' =? k)%N | None => false end); cbn; match goal with |- context [if ?b then _ else _] => destruct b end;
        try (now apply SAME); (eapply Nat.le_trans; [apply (others_del s _ h); cbn; now rewrite E|easy]). }
    unfold PrsModel.step. cbn [fst snd]. destruct e as [k h' chal|k chal|k|k a| | |rnd sh shn|a|id hash].
    - destruct (next s <=? k); [now apply CONN|easy].
    - destruct (get k (conns s)) as [[h' [|]]|]; try easy. now apply CONN.
    - apply SAME. now apply DISC.
    - apply SAME. unfold PrsModel.on_return. set (s1 := set_peers (upd k (set_last now) (peers s)) s). assert (E : dials s1 = dials s) by easy. clearbody s1.
      destruct a as [i|i v f|key sig|l|v|x|id x| |]; try easy.
      + destruct (i =? my_id); [|easy]. apply DISC. now destruct (get k (peers s1)).
      + destruct (get k (peers s1)); [|easy]. now destruct (103 <=? v).
      + destruct (get k (peers s1)); [|easy]. destruct (_ && _); [|now apply DISC]. cbn. destruct (replace_spec (addr_of key) s1) as (_ & (_&_&_&_&A&_) & _). congruence.
      + destruct (get k (peers s1)) as [p|]; [|easy]. destruct v; [|easy]. now destruct (p_full p).
      + destruct (_ && _); [|easy]. destruct (get k (peers s1)) as [p|]; [|easy]. destruct (p_sync p); [|easy]. now apply DISC.
    - destruct (tasks s) as [|[k h'] r]; [easy|]. unfold PrsModel.run_task. cbn. destruct (get k (peers s)); cbn; destruct (sget h' (dials s)) as [c'|]; cbn; try destruct (c' =? k);
        try (now apply SAME); (eapply Nat.le_trans; [apply (others_del s _ h'); reflexivity|easy]).
    - apply SAME. destruct (fold_disc (fun e => timed_out cfg now (snd e)) fst (peers s) s) as (_ & (_&_&_&_&A&_) & _). exact A.
    - rewrite connect_parts. assert (D : (List.length (others (dialled now rnd sh s)) <= 2 * num_out cfg)%nat).
      { unfold dialled. cbv zeta. apply (fold_inv (fun s' => List.length (others s') <= 2 * num_out cfg)%nat); [intros; now apply others_try|].
        set (s1 := fold_left _ (fixed cfg) s). assert (Q : (List.length (others s1) <= 2 * num_out cfg)%nat).
        { unfold s1. assert (G : forall l s', (forall x, In x l -> In x (fixed cfg)) -> (List.length (others s') <= 2 * num_out cfg)%nat ->
            (List.length (others (fold_left (fun s h => if existsb (fun e => fst e == resolve h) (addrs s) then s else connect_to h s) l s')) <= 2 * num_out cfg)%nat).
          { induction l as [|x l IH]; cbn [fold_left]; intros s' S L; [easy|]. apply IH; [intros; apply S; now right|]. destruct (existsb _ _); [easy|]. assert (Q := others_connect_to x s').
            assert (M : smem x (fixed cfg) = true) by (apply smem_in, S; now left). rewrite M in Q. lia. }
          apply G; easy. }
        clearbody s1. destruct (try_hosts_st now rnd (num_out cfg <=? List.length (out_synced cfg s1))%nat (all_hosts cfg s1) ([], s1)) as [r E]. rewrite E. exact Q. }
      set (d := dialled now rnd sh s) in *. clearbody d.
      destruct (discs_sbc (excess1 shn s) d) as (_&_&_&_&E1&_). destruct (discs_sbc (excess2 now shn s) (fold_left (fun s c => disconnect c s) (excess1 shn s) d)) as (_&_&_&_&E2&_).
      rewrite (others_same d); [easy|congruence].
    - apply SAME. unfold kick_peer. apply (fold_inv (fun s' => dials s' = dials s)); [|easy]. intros s' c Q. unfold ban_peer. match goal with |- context [if ?b then _ else _] => destruct b end; cbn; destruct (get c (peers s')); try easy; now apply DISC.
    - now apply SAME.
  Qed.
  Lemma run_others kn bl l : (List.length (others (run kn bl l)) <= 2 * num_out cfg)%nat.
  Proof. unfold PrsModel.run. apply (fold_inv (fun s => List.length (others s) <= 2 * num_out cfg)%nat); [intros; now apply step_others|cbn; lia]. Qed.

  (** How many outbound peers stay *)
  Lemma nodup_incl_len (l l' : list N) : NoDup l -> incl l l' -> (List.length l <= List.length l')%nat.
  Proof. intros N H. now apply NoDup_incl_length. Qed.
  Lemma excess_left (shn : list N -> list N) (os : list N) (n k : nat) (g : N -> bool) : (forall l, Permutation l (shn l)) -> NoDup os ->
    (n <= k)%nat -> (forall c, In c (get_subset shn os (N.of_nat (if (k <? List.length os)%nat then (List.length os - n)%nat else 0%nat))) -> g c = false) ->
    (List.length (filter g os) <= k)%nat.
  Proof.
    intros P N L H. destruct (Nat.ltb_spec k (List.length os)) as [Q|Q].
    2:{ eapply Nat.le_trans; [apply len_filter|easy]. }
    unfold get_subset in H. destruct (N.ltb_spec (N.of_nat (List.length os - n)) (N.of_nat (List.length os))) as [K|K].
    - rewrite Nat2N.id in H. assert (E := firstn_skipn (List.length os - n) (shn os)). assert (LE := Permutation_length (P os)).
      eapply Nat.le_trans; [|exact L]. replace n with (List.length (skipn (List.length os - n) (shn os))) by (rewrite skipn_length; lia).
      apply NoDup_incl_length; [now apply NoDup_filter|]. intros c C. apply filter_In in C. destruct C as [C1 C2]. apply (Permutation_in _ (P os)) in C1. rewrite <- E in C1. apply in_app_or in C1.
      destruct C1 as [C1|C1]; [|easy]. apply H in C1. congruence.
    - assert (E : filter g os = []). { clear -H. induction os as [|x os IH]; cbn; [easy|]. rewrite (H x) by now left. apply IH. intros; apply H; now right. } rewrite E. cbn. lia.
  Qed.
  Definition openb (s : st) (c : N) : bool := match get c (conns s) with Some _ => true | None => false end.
  Lemma openb_gone s c : ~ In c (map fst (conns s)) -> openb s c = false.
  Proof. intros H. unfold openb. apply get_none in H. now rewrite H. Qed.
  Lemma out_nodup (f : N * peer -> bool) s : Inv s -> NoDup (map fst (filter f (outbound cfg s))).
  Proof. intros H. apply nodup_filter_keys. unfold outbound. apply nodup_filter_keys. apply H. Qed.

  Lemma connect_excess now rnd sh shn s : Inv s -> (forall l, Permutation l (shn l)) -> let s' := connect now rnd sh shn s in
    (List.length (filter (openb s') (out_synced cfg s')) <= num_out cfg + 1)%nat /\ (List.length (filter (openb s') (out_not_synced cfg now s')) <= num_out cfg)%nat.
  Proof.
    intros HI P s'. assert (E : peers s' = peers s) by apply connect_peers.
    assert (E1 : out_synced cfg s' = out_synced cfg s) by (unfold out_synced, outbound; now rewrite E).
    assert (E2 : out_not_synced cfg now s' = out_not_synced cfg now s) by (unfold out_not_synced, outbound; now rewrite E).
    rewrite E1, E2. assert (C := connect_parts now rnd sh shn s). fold s' in C. split.
    - apply (excess_left shn _ (num_out cfg)); [easy|now apply out_nodup|lia|]. intros c Q. apply openb_gone. rewrite C. intros K. apply key_in in K. destruct K as [v K]. apply discs_sbc, in_key in K.
      revert K. now apply discs_gone.
    - apply (excess_left shn _ (num_out cfg)); [easy|now apply out_nodup|lia|]. intros c Q. apply openb_gone. rewrite C. now apply discs_gone.
  Qed.

  Lemma step_selfs s e a : In a (selfs s) -> In a (selfs (step s e)).
  Proof.
    intros H. destruct e as [now e].
    assert (SAME : forall s', selfs s' = selfs s -> In a (selfs s')) by (intros s' ->; easy).
    assert (DISC : forall c s', In a (selfs s') -> In a (selfs (disconnect c s'))) by (intros c s' Q; destruct (disconnect_sbc c s') as (_&_&_&_&_&_&_&_&K&_); congruence).
    assert (CONN : forall k h m s1, selfs s1 = selfs s -> In a (selfs (on_connect now k h m s1))).
    { intros k h m s1 E. unfold PrsModel.on_connect. destruct (smem (resolve h) (blocked s1)); [now apply DISC, SAME|].
      destruct (match sget h (dials s1) with Some c' => (c' =? k)%N | None => false end); cbn; match goal with |- context [if ?b then _ else _] => destruct b end; now apply SAME. }
    unfold PrsModel.step. cbn [fst snd]. destruct e as [k h' chal|k chal|k|k x| | |rnd sh shn|x|id hash].
    - destruct (next s <=? k); [now apply CONN|easy].
    - destruct (get k (conns s)) as [[h' [|]]|]; try easy. now apply CONN.
    - now apply DISC.
    - unfold PrsModel.on_return. set (s1 := set_peers (upd k (set_last now) (peers s)) s). assert (E : In a (selfs s1)) by easy. clearbody s1.
      destruct x as [i|i v f|key sig|l|v|x|id x| |]; try easy.
      + destruct (_ =? _); [|easy]. apply DISC. destruct (get k (peers s1)); [|easy]. cbn. apply in_sins. now right.
      + destruct (get k (peers s1)); [|easy]. now destruct (103 <=? v).
      + destruct (get k (peers s1)); [|easy]. destruct (_ && _); [|now apply DISC]. cbn. destruct (replace_spec (addr_of key) s1) as (_ & (_&_&_&_&_&_&_&_&A&_) & _). now rewrite A.
      + destruct (get k (peers s1)) as [p|]; [|easy]. destruct v; [|easy]. now destruct (p_full p).
      + destruct (_ && _); [|easy]. destruct (get k (peers s1)) as [p|]; [|easy]. destruct (p_sync p); [|easy]. now apply DISC.
    - apply SAME. destruct (tasks s) as [|[k h'] r]; [easy|]. unfold PrsModel.run_task. cbn. destruct (get k (peers s)); cbn; destruct (sget h' (dials s)) as [c'|]; cbn; try destruct (c' =? k); easy.
    - apply SAME. destruct (fold_disc (fun e => timed_out cfg now (snd e)) fst (peers s) s) as (_ & (_&_&_&_&_&_&_&_&A&_) & _). exact A.
    - rewrite connect_parts. destruct (dialled_sbd now rnd sh s) as (_&_&_&_&_&A&_). set (d := dialled now rnd sh s) in *. clearbody d.
      destruct (discs_sbc (excess1 shn s) d) as (_&_&_&_&_&_&_&_&B&_). destruct (discs_sbc (excess2 now shn s) (fold_left (fun s c => disconnect c s) (excess1 shn s) d)) as (_&_&_&_&_&_&_&_&C&_).
      apply SAME. congruence.
    - unfold kick_peer. apply (fold_inv (fun s' => In a (selfs s'))); [|easy]. intros s' c Q. unfold ban_peer. match goal with |- context [if ?b then _ else _] => destruct b end; cbn; destruct (get c (peers s')); try easy; now apply DISC.
    - now apply SAME.
  Qed.
End ROUTER.

(** get_peers *)
Lemma fold_public l : forall acc, NoDup acc -> NoDup (fold_left (fun acc a => if is_public_address a then sins a acc else acc) l acc)
  /\ forall a, In a (fold_left (fun acc a => if is_public_address a then sins a acc else acc) l acc) <-> In a acc \/ (In a l /\ is_public_address a = true).
Proof.
  induction l as [|x l IH]; cbn [fold_left]; intros acc N; [split; [easy|cbn; tauto]|]. destruct (is_public_address x) eqn:E.
  - destruct (IH (sins x acc)) as [A B]; [now apply nodup_sins|]. split; [easy|]. intros a. rewrite B, in_sins. cbn. intuition (subst; auto).
  - destruct (IH acc N) as [A B]. split; [easy|]. intros a. rewrite B. cbn. intuition (subst; auto). congruence.
Qed.
Lemma get_peers_spec sh n s : (forall l, Permutation l (sh l)) -> let l := get_peers sh n s in
  NoDup l /\ (N.of_nat (List.length l) <= n) /\ (forall a, In a l -> is_public_address a = true /\ (In a (known s) \/ exists c p, In (c, p) (peers s) /\ p_addr p = a))
  /\ (N.of_nat (List.length l) < n -> forall a, is_public_address a = true -> In a (known s) \/ (exists c p, In (c, p) (peers s) /\ p_addr p = a) -> In a l).
Proof.
  intros P. unfold get_peers. set (all := known s ++ map (fun e => p_addr (snd e)) (peers s)). cbv zeta. destruct (fold_public all [] (NoDup_nil _)) as [A B]. set (v := fold_left _ all []) in *. clearbody v.
  assert (ALL : forall a, In a all <-> In a (known s) \/ exists c p, In (c, p) (peers s) /\ p_addr p = a).
  { intros a. unfold all. rewrite in_app_iff, in_map_iff. split; (intros [H|H]; [now left|right]); [destruct H as [[c p] [H1 H2]]; now exists c, p|destruct H as (c & p & H1 & H2); now exists (c, p)]. }
  assert (V : forall a, In a v <-> In a all /\ is_public_address a = true) by (intros a; rewrite B; cbn; tauto). unfold get_subset.
  destruct (N.ltb_spec n (N.of_nat (List.length v))) as [L|L].
  - assert (LE := Permutation_length (P v)). assert (F : List.length (firstn (N.to_nat n) (sh v)) = N.to_nat n) by (apply firstn_length_le; lia).
    assert (E := firstn_skipn (N.to_nat n) (sh v)). assert (NS : NoDup (sh v)) by (apply (Permutation_NoDup (P v) A)).
    split; [|split; [lia|split; [|lia]]].
    + rewrite <- E in NS. clear -NS. revert NS. generalize (skipn (N.to_nat n) (sh v)). induction (firstn (N.to_nat n) (sh v)) as [|x l IH]; intros r N; [constructor|]. cbn in N. inversion N as [|? ? N1 N2]; subst.
      constructor; [|now apply (IH r)]. intros Q. apply N1. apply in_or_app. now left.
    + intros a Q. rewrite <- ALL. assert (K : In a (sh v)) by (rewrite <- E; apply in_or_app; now left). apply (Permutation_in _ (Permutation_sym (P v))), V in K. tauto.
  - split; [easy|]. split; [lia|]. split.
    + intros a Q. rewrite <- ALL. apply V in Q. tauto.
    + intros _ a Q K. rewrite <- ALL in K. now apply V.
Qed.

Lemma prefix_cons x p y a : prefix (String x p) (String y a) = true <-> x = y /\ prefix p a = true.
Proof. change (prefix (String x p) (String y a)) with (if Ascii.ascii_dec x y then prefix p a else false). destruct (Ascii.ascii_dec x y); split; easy. Qed.
Lemma prefix_iff p : forall a, prefix p a = true <-> begins_with p a.
Proof.
  unfold begins_with. induction p as [|x p IH]; intros a.
  - split; [intros _; now exists a|]. now destruct a.
  - destruct a as [|y a]; [split; [easy|intros [r Q]; discriminate]|]. rewrite prefix_cons, IH. split.
    + intros [-> [r ->]]. now exists r.
    + intros [r Q]. cbn in Q. injection Q as -> ->. split; [easy|]. now exists r.
Qed.
Lemma valid_iff a : is_valid_address a = true <-> ~ unusable a.
Proof.
  unfold is_valid_address, unusable. rewrite <- prefix_iff. destruct (String.eqb_spec a ""), (String.eqb_spec a "0.0.0.0"), (prefix "127." a); cbn; split; intros; try easy; try tauto;
    try (intros [Q|[Q|Q]]; easy).
Qed.
Lemma public_iff a : is_public_address a = true <-> ~ local a.
Proof.
  unfold is_public_address, local. rewrite !andb_true_iff, valid_iff, !negb_true_iff, <- !(prefix_iff _ a). destruct (prefix "10." a), (prefix "192.168." a); split; intros; try easy; try tauto;
    try (intros [Q|[Q|Q]]; easy).
Qed.
Lemma timed_out_iff cfg now p : timed_out cfg now p = true <-> late cfg now (p_since p) (p_last p) (p_out p).
Proof.
  unfold timed_out, late. rewrite orb_true_iff, !andb_true_iff, !Z.ltb_lt, !negb_true_iff, Z.eqb_neq. destruct (p_out p); tauto.
Qed.
