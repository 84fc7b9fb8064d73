(** C120: who the peers of the node are, and bans.  C121: whom the node connects to, keeps and tells of. *)
Require Import List Arith NArith ZArith Bool String Lia Permutation.
From Verif Require Import PrsModel PrsSpec PrsProofs.
Import ListNotations.
Open Scope N_scope.

Section PROPS.
  Variables (resolve : string -> string) (is_ip : string -> bool) (addr_of : N -> N) (verify : N -> N -> N -> bool) (sign : N -> N -> N) (key_of : N -> N)
    (skey my_version : N) (cfg : config) (kn bl : list string).
  Notation run := (run resolve is_ip addr_of verify key_of skey cfg kn bl).

  (** C120: a peer counts as the node [i] only if, after the connection began, it answered with a key of [i] and a signature by this key of the challenge that was drawn for this connection *)
  Theorem C120_identity l c p i : In (c, p) (peers (run l)) -> p_node p = Some i ->
    exists m t post now key sig, since c m t l post /\ In (now, Answer c (Signed key sig)) post /\ addr_of key = i /\ verify key sig m = true.
  Proof.
    intros H E. destruct (history resolve is_ip addr_of verify key_of skey cfg kn bl l c p H) as (post & S & _ & _ & _ & O). destruct (O i E) as (now & key & sig & A & B & C).
    exists (p_chal p), (p_since p), post, now, key, sig. auto.
  Qed.

  (** C120: no two open connections count as the same node *)
  Theorem C120_unique l c1 c2 p1 p2 i : let s := run l in open s c1 -> open s c2 -> In (c1, p1) (peers s) -> In (c2, p2) (peers s) -> p_node p1 = Some i -> p_node p2 = Some i -> c1 = c2.
  Proof.
    intros s [h1 O1] [h2 O2] P1 P2 E1 E2. assert (H := run_inv resolve is_ip addr_of verify key_of skey cfg kn bl l). apply in_key in O1, O2.
    apply (i_uniq _ _ _ _ _ _ _ H c1 c2 p1 p2 i); assumption.
  Qed.

  (** C120: a peer that gives its id and answers the challenge as the router of a node does counts as this node, its connection stays open, and all others of the node are closed; with any other answer it is closed *)
  Theorem C120_answer l now c p key sig : let s := run l in let s' := run (l ++ [(now, Answer c (Signed key sig))]) in In (c, p) (peers s) -> open s c ->
    (addr_of key = p_id p -> verify key sig (p_chal p) = true -> p_node p = None ->
       open s' c /\ (exists p', In (c, p') (peers s') /\ p_node p' = Some (addr_of key)) /\ forall c' q, In (c', q) (peers s) -> p_node q = Some (addr_of key) -> ~ open s' c')
    /\ (addr_of key <> p_id p \/ verify key sig (p_chal p) = false -> ~ open s' c).
  Proof.
    intros s s' P [h O]. unfold s'. rewrite run_snoc. fold s. assert (HI : Inv s) by apply run_inv. cbn [step fst snd]. unfold on_return.
    set (s1 := set_peers (upd c (set_last now) (peers s)) s). assert (P1 : In (c, set_last now p) (peers s1)) by (apply in_upd; right; split; [easy|now exists p]).
    assert (N1 : NoDup (map fst (peers s1))) by (cbn; rewrite keys_upd; apply HI). rewrite (in_get _ _ _ N1 P1). cbn [p_id p_chal set_last]. split.
    - intros A V F. rewrite A, N.eqb_refl, <- A, V. cbn [andb]. destruct (replace_spec (addr_of key) s1) as (_ & R2 & R3 & R4). destruct R2 as (_&R2&_). split; [|split].
      + exists h. cbn [conns set_peers]. apply R4; [easy|]. intros q Q. assert (X := nodup_in _ _ _ _ N1 Q P1). subst q. cbn. congruence.
      + cbn [peers set_peers]. rewrite R2. exists (set_node (addr_of key) (set_last now p)). split; [|easy]. apply in_upd. right. split; [easy|]. now exists (set_last now p).
      + intros c' q Q E [h' K]. cbn [conns set_peers] in K. apply in_key in K. destruct (N.eq_dec c' c) as [->|M].
        * assert (X := nodup_in _ _ _ _ (i_pn _ _ _ _ _ _ _ HI) Q P). congruence.
        * revert K. apply (R3 c' q); [|easy]. apply in_upd. now left.
    - intros W. assert (B : (addr_of key =? p_id p) && verify key sig (p_chal p) = false) by (destruct W as [W|W]; [apply N.eqb_neq in W; now rewrite W|rewrite W; apply andb_false_r]).
      rewrite B. intros [h' K]. apply in_key in K. now apply disconnect_gone in K.
  Qed.

  (** C120: the router of the node answers a challenge so that it counts *)
  Theorem C120_answers sh m s : (forall sk m, verify (key_of sk) (sign sk m) m = true) ->
    exists key sig v f, answer addr_of sign key_of skey my_version sh GetInfo s = Some (Info (addr_of key) v f) /\ answer addr_of sign key_of skey my_version sh (SignMsg m) s = Some (Signed key sig) /\ verify key sig m = true.
  Proof. intros V. exists (key_of skey), (sign skey m), my_version, true. now rewrite V. Qed.

  (** C120: the synced peers are some of those that said so last *)
  Theorem C120_synced l c : In c (synced (run l)) -> exists p m t post, In (c, p) (peers (run l)) /\ since c m t l post /\ said_synced c post = true.
  Proof.
    intros H. destruct (i_sync _ _ _ _ _ _ _ (run_inv resolve is_ip addr_of verify key_of skey cfg kn bl l) c H) as [p [P1 P2]].
    destruct (history resolve is_ip addr_of verify key_of skey cfg kn bl l c p P1) as (post & S & Y & _). exists p, (p_chal p), (p_since p), post. repeat split; try easy. congruence.
  Qed.

  (** C120: a full node that says so is one of them at once *)
  Theorem C120_synced_now l now c p h : In (c, p) (peers (run l)) -> p_full p = true -> In c (synced (run (l ++ [(now, Answer c (Synced (Some h)))]))).
  Proof.
    intros P F. rewrite run_snoc. cbn [step fst snd]. unfold on_return. set (s1 := set_peers _ _). assert (HI := run_inv resolve is_ip addr_of verify key_of skey cfg kn bl l).
    assert (P1 : In (c, set_last now p) (peers s1)) by (apply in_upd; right; split; [easy|now exists p]). assert (N1 : NoDup (map fst (peers s1))) by (cbn; rewrite keys_upd; apply HI).
    rewrite (in_get _ _ _ N1 P1). cbn [p_full set_last]. rewrite F. now left.
  Qed.

  (** C120: each open connection has exactly one peer, with the address of the host; when the tasks are done all peers are open connections; the peers found by an address are exactly those *)
  Theorem C120_books l : let s := run l in NoDup (map fst (peers s)) /\ (forall c, open s c -> exists p, In (c, p) (peers s)) /\ (tasks s = [] -> forall c p, In (c, p) (peers s) -> open s c)
    /\ (forall c p, In (c, p) (peers s) -> p_addr p = resolve (p_host p)) /\ (forall a c, In c (find_peers a s) <-> exists p, In (c, p) (peers s) /\ p_addr p = a).
  Proof.
    intros s. assert (HI : Inv s) by apply run_inv. split; [apply HI|]. split; [|split; [|split]].
    - intros c [h O]. apply (i_open _ _ _ _ _ _ _ HI), key_in in O. easy.
    - intros T c p P. apply in_key in P. destruct (i_peer _ _ _ _ _ _ _ HI c P) as [O|O]; [exact O|]. now rewrite T in O.
    - intros c p P. now destruct (history resolve is_ip addr_of verify key_of skey cfg kn bl l c p P) as (_ & _ & _ & _ & E & _).
    - intros a c. now apply found.
  Qed.

  (** C120: when a peer is kicked its address is banned: all its connections are closed, and whatever happens none opens again, as long as there are less than a million bans *)
  Theorem C120_kick l now a l' : (exists c p, In (c, p) (peers (run l)) /\ p_addr p = a) -> N.of_nat (S (S (List.length (blocked (run l)) + kicks l'))) < 1000000 ->
    banned (run (l ++ (now, Kick a) :: l')) a.
  Proof.
    intros (c & p & P & E) B. unfold PrsModel.run. rewrite fold_left_app. fold (run l). cbn [fold_left]. set (s := run l) in *. assert (HI : Inv s) by apply run_inv.
    cbn [step fst snd]. destruct (kick_spec a s HI) as (_ & L & K); [unfold small; lia|]. apply run_banned; [apply (step_inv resolve is_ip addr_of verify key_of skey cfg s (now, Kick a) HI)|unfold small; lia|].
    split; [now apply (K c p)|]. intros c' p' [h O] P' E'. rewrite kick_peers in P'. apply in_key in O. now apply (K c' p') in O.
  Qed.

  (** C120: nor does one of an address on the list of the configuration *)
  Theorem C120_blocked l a : In a bl -> N.of_nat (S (List.length bl + kicks l)) < 1000000 -> banned (run l) a.
  Proof. intros H B. apply run_banned; [apply start_inv|exact B|]. split; [exact H|]. intros c p [h []]. Qed.

  (** C121: connections are begun only to the peers of the configuration, and to hosts that are known, were told by others or are seeds, whose address is usable, not banned, not our own, and not that of a peer *)
  Theorem C121_connect l now rnd sh shn c h b : let s := run l in (forall x, Permutation x (sh x)) -> In (c, (h, b)) (conns (run (l ++ [(now, Connect rnd sh shn)]))) -> ~ In (c, (h, b)) (conns s) ->
    b = false /\ (In h (fixed cfg) \/ exists h0, (In h0 (known s) \/ In h0 (map fst (retry s)) \/ In h0 (seeds cfg)) /\ h = resolve h0 /\ ~ unusable h
      /\ ~ In h (blocked s) /\ ~ In h0 (blocked s) /\ ~ In h (selfs s) /\ ~ In h0 (selfs s) /\ forall k p, In (k, p) (peers s) -> p_addr p <> h).
  Proof.
    intros s P H O. rewrite run_snoc in H. fold s in H. cbn [step fst snd] in H. apply connect_new in H; try assumption. destruct H as [H1 H2]. split; [easy|]. destruct H2 as [H2|(h0 & H2 & H3)]; [now left|right].
    exists h0. split; [easy|]. destruct H3 as (A & B & C & D & E & F & G). repeat split; try easy; [now apply valid_iff|]. intros k p K Q. apply C. unfold s in *. rewrite (i_addr _ _ _ _ _ _ _ (run_inv resolve is_ip addr_of verify key_of skey cfg kn bl l)).
    apply in_map_iff. exists (h, k). split; [easy|]. apply in_map_iff. exists (k, p). cbn. now rewrite Q.
  Qed.

  (** C121: when a peer has our own id it is closed, and no connection to its address is begun later on, except if the configuration demands it *)
  Theorem C121_own l now c p l' now' rnd sh shn k h b : let s := run (l ++ (now, Answer c (Id (my_id addr_of key_of skey))) :: l') in
    (forall x, Permutation x (sh x)) -> In (c, p) (peers (run l)) -> ~ open (run (l ++ [(now, Answer c (Id (my_id addr_of key_of skey)))])) c
    /\ (In (k, (h, b)) (conns (run (l ++ (now, Answer c (Id (my_id addr_of key_of skey))) :: l' ++ [(now', Connect rnd sh shn)]))) -> ~ In (k, (h, b)) (conns s) -> In h (fixed cfg) \/ h <> p_addr p).
  Proof.
    intros s P H. split.
    - rewrite run_snoc. cbn [step fst snd]. unfold on_return. rewrite N.eqb_refl. intros [x K]. apply in_key in K. now apply disconnect_gone in K.
    - intros Q O. assert (S : In (p_addr p) (selfs s)).
      { unfold s, PrsModel.run. rewrite fold_left_app. fold (run l). cbn [fold_left]. apply (fold_inv (fun s => In (p_addr p) (selfs s))); [intros; now apply step_selfs|].
        cbn [step fst snd]. unfold on_return. rewrite N.eqb_refl. set (s1 := set_peers _ _). assert (HI := run_inv resolve is_ip addr_of verify key_of skey cfg kn bl l).
        assert (P1 : In (c, set_last now p) (peers s1)) by (apply in_upd; right; split; [easy|now exists p]). assert (N1 : NoDup (map fst (peers s1))) by (cbn; rewrite keys_upd; apply HI).
        rewrite (in_get _ _ _ N1 P1). destruct (disconnect_sbc c (set_selfs (sins (p_addr (set_last now p)) (selfs s1)) s1)) as (_&_&_&_&_&_&_&_&E&_). rewrite E. apply in_sins. now left. }
      replace (l ++ (now, Answer c (Id (my_id addr_of key_of skey))) :: l' ++ [(now', Connect rnd sh shn)]) with ((l ++ (now, Answer c (Id (my_id addr_of key_of skey))) :: l') ++ [(now', Connect rnd sh shn)]) in Q by now rewrite <- app_assoc.
      destruct (C121_connect _ _ _ _ _ _ _ _ P Q O) as [_ [F|(h0 & _ & _ & _ & _ & _ & F & _)]]; [now left|right]. intros ->. now apply F.
  Qed.

  (** C121: at no time is a host dialled twice, nor are more than twice as many hosts dialled as peers wanted, besides those of the configuration *)
  Theorem C121_dials l : let s := run l in (forall h c c', opening s c h -> opening s c' h -> c = c') /\
    forall hs, NoDup hs -> (forall h, In h hs -> ~ In h (fixed cfg) /\ exists c, opening s c h) -> (List.length hs <= 2 * num_out cfg)%nat.
  Proof.
    intros s. assert (HI : Inv s) by apply run_inv. split.
    - intros h c c' A B. apply (i_d2 _ _ _ _ _ _ _ HI) in A, B. now apply (snodup_in _ _ _ _ (i_dn _ _ _ _ _ _ _ HI) A).
    - intros hs N H. eapply Nat.le_trans; [|apply (run_others resolve is_ip addr_of verify key_of skey cfg kn bl l)]. rewrite <- (map_length fst). apply NoDup_incl_length; [easy|]. intros h Q.
      destruct (H h Q) as [F [c O]]. apply in_map_iff. exists (h, c). split; [easy|]. apply filter_In. split; [now apply (i_d2 _ _ _ _ _ _ _ HI)|]. cbn. destruct (smem h (fixed cfg)) eqn:E; [|easy]. apply smem_in in E. easy.
  Qed.

  (** C121: after each turn, of the peers that were connected to by choice at most one more than wanted are synced, and at most as many as wanted have not been for longer than the timeout *)
  Theorem C121_excess l now rnd sh shn cs : let s := run (l ++ [(now, Connect rnd sh shn)]) in (forall x, Permutation x (shn x)) -> NoDup cs ->
    (forall c, In c cs -> open s c /\ exists p, In (c, p) (peers s) /\ p_out p = true /\ ~ In (p_host p) (fixed cfg)) ->
    ((forall c p, In c cs -> In (c, p) (peers s) -> p_sync p = true) -> (List.length cs <= num_out cfg + 1)%nat)
    /\ ((forall c p, In c cs -> In (c, p) (peers s) -> p_sync p = false /\ (conn_timeout cfg < now - p_since p)%Z) -> (List.length cs <= num_out cfg)%nat).
  Proof.
    intros s P N H. assert (HI : Inv s) by apply run_inv. assert (HL := run_inv resolve is_ip addr_of verify key_of skey cfg kn bl l). destruct (connect_excess resolve cfg now rnd sh shn (run l) HL P) as [A B].
    assert (E : connect resolve cfg now rnd sh shn (run l) = s) by (unfold s; now rewrite run_snoc). rewrite E in A, B.
    assert (Q : forall c, In c cs -> openb s c = true /\ exists p, In (c, p) (peers s) /\ In (c, p) (outbound cfg s)).
    { intros c C. destruct (H c C) as [[h O] (p & P1 & P2 & P3)]. split; [unfold openb; now rewrite (in_get _ _ _ (i_cn _ _ _ _ _ _ _ HI) O)|]. exists p. split; [easy|]. apply filter_In. split; [easy|]. cbn. rewrite P2. cbn.
      destruct (smem (p_host p) (fixed cfg)) eqn:S; [|easy]. apply smem_in in S. easy. }
    split; intros Y; (eapply Nat.le_trans; [|eassumption]); (apply NoDup_incl_length; [easy|]); intros c C; destruct (Q c C) as [Q1 (p & Q2 & Q3)]; apply filter_In; (split; [|easy]); apply in_map_iff; exists (c, p); (split; [easy|]);
      apply filter_In; (split; [easy|]); cbn; specialize (Y c p C Q2).
    - exact Y.
    - destruct Y as [Y1 Y2]. rewrite Y1. now apply Z.ltb_lt.
  Qed.

  (** C121: the check for timeouts closes exactly the connections that have had their time, counted from the last answer, or from the begin if there is none *)
  Theorem C121_timeout l now c p : In (c, p) (peers (run l)) -> open (run l) c ->
    exists m t post, since c m t l post /\ (open (run (l ++ [(now, Update)])) c <-> ~ late cfg now t (last_heard c post) (p_out p)).
  Proof.
    intros P [h O]. destruct (history resolve is_ip addr_of verify key_of skey cfg kn bl l c p P) as (post & S & _ & E & _). exists (p_chal p), (p_since p), post. split; [easy|]. rewrite <- E, <- timed_out_iff.
    rewrite run_snoc. set (s := run l) in *. cbn [step fst snd]. unfold update. destruct (fold_disc (fun e => timed_out cfg now (snd e)) fst (peers s) s) as (_ & A2 & A3 & A4). split.
    - intros [h' K] F. apply in_key in K. now apply (A3 (c, p) P F) in K.
    - intros F. exists h. apply A4; [easy|]. intros [k q] Q1 Q2. cbn in *. intros ->. assert (X := nodup_in _ _ _ _ (i_pn _ _ _ _ _ _ _ (run_inv resolve is_ip addr_of verify key_of skey cfg kn bl l)) Q1 P). now subst.
  Qed.

  (** C121: other nodes are told of different addresses, not more than they asked for, that are known or of peers and not local; if less than they asked for, of all of them *)
  Theorem C121_tell sh n s l : (forall x, Permutation x (sh x)) -> answer addr_of sign key_of skey my_version sh (GetPeers n) s = Some (Peers l) ->
    NoDup l /\ N.of_nat (List.length l) <= n /\ (forall a, In a l -> ~ local a /\ met s a) /\ (N.of_nat (List.length l) < n -> forall a, ~ local a -> met s a -> In a l).
  Proof.
    intros P [= <-]. destruct (get_peers_spec sh n s P) as (A & B & C & D). split; [easy|]. split; [easy|]. split.
    - intros a Q. rewrite <- public_iff. now apply C.
    - intros L a Q M. apply D; [easy|now apply public_iff|exact M].
  Qed.
End PROPS.
Print Assumptions C120_identity.
Print Assumptions C120_unique.
Print Assumptions C120_answer.
Print Assumptions C120_answers.
Print Assumptions C120_synced.
Print Assumptions C120_synced_now.
Print Assumptions C120_books.
Print Assumptions C120_kick.
Print Assumptions C120_blocked.
Print Assumptions C121_connect.
Print Assumptions C121_own.
Print Assumptions C121_dials.
Print Assumptions C121_excess.
Print Assumptions C121_timeout.
Print Assumptions C121_tell.

(** A case: keys, signatures and names *)
Definition t_key (sk : N) : N := sk + 10.
Definition t_addr (key : N) : N := key + 100.
Definition t_sign (sk m : N) : N := sk * 1000 + m.
Definition t_verify (key sig m : N) : bool := (10 <=? key) && (sig =? (key - 10) * 1000 + m).
Definition t_resolve (h : string) : string := if h == "seed.mmx" then "9.9.9.9" else h.
Definition t_cfg := mk_config 1 1000 0 10 100 ["3.3.3.3"%string] ["seed.mmx"%string].
Definition t_run := run t_resolve (fun _ => true) t_addr t_verify t_key 1 t_cfg ["4.4.4.4"%string] ["5.5.5.5"%string].

(** The node of key 2 connects and proves who it is; the others are dialled; a banned host, and one with our own id, are turned away *)
Definition t_first : list (Z * event) :=
  [(1, Accept 0 "1.1.1.1" 5); (2, Answer 0 (Info 112 103 true)); (3, Answer 0 (Signed 12 2005)); (4, Answer 0 (Synced (Some 7%N)));
   (5, Connect (fun _ => 0%Z) (fun l => l) (fun l => l)); (6, Up 1 8); (7, Accept 3 "5.5.5.5" 9); (8, Answer 1 (Id 111)); (9, Task); (10, Task)]%Z.
Example C120_case : t_verify 12 2005 5 = true /\ map (fun e => (fst e, p_node (snd e))) (peers (t_run t_first)) = [(0, Some 112)]
  /\ conns (t_run t_first) = [(2, ("4.4.4.4", false)); (0, ("1.1.1.1", true))]%string /\ synced (t_run t_first) = [0] /\ selfs (t_run t_first) = ["3.3.3.3"%string] /\ known (t_run t_first) = ["3.3.3.3"; "4.4.4.4"]%string.
Proof. vm_compute. repeat split. Qed.
Example C120_case_kick : let l := t_first ++ [(11%Z, Kick "1.1.1.1"); (12%Z, Accept 7 "1.1.1.1" 3)] in blocked (t_run l) = ["1.1.1.1"; "5.5.5.5"]%string /\ conns (t_run l) = [(2, ("4.4.4.4"%string, false))].
Proof. vm_compute. repeat split. Qed.
Example C121_case_timeout : map fst (conns (t_run (t_first ++ [(1004%Z, Update)]))) = [2; 0] /\ map fst (conns (t_run (t_first ++ [(1005%Z, Update)]))) = [2].
Proof. vm_compute. repeat split. Qed.
Example C121_case_tell : get_peers (fun l => l) 2 (t_run (t_first ++ [(11%Z, Accept 5 "10.1.1.1" 1); (12%Z, Accept 6 "8.8.8.8" 1)])) = ["1.1.1.1"; "3.3.3.3"]%string.
Proof. vm_compute. reflexivity. Qed.

(** C120 is false in this form: "a peer that counts as a node is this node".  A router signs whatever anybody asks it to sign.  Somebody who is connected to the node of key 2 hands our challenge on to it and the signature back to us: they count as
    this node, and our connection to the real node is closed. *)
Theorem C120_relay_refuted : exists l attacker real key sig m,
  answer t_addr t_sign t_key 2 103 (fun l => l) (SignMsg m) (start [] []) = Some (Signed key sig)
  /\ (exists h, In (real, (h, true)) (conns (t_run l)) /\ exists p, In (real, p) (peers (t_run l)) /\ p_node p = Some (my_id t_addr t_key 2))
  /\ attacker <> real /\ let s := t_run (l ++ [(21%Z, Answer attacker (Info (my_id t_addr t_key 2) 103 true)); (22%Z, Answer attacker (Signed key sig))]) in
     hd OtherReq (map snd (out s)) = SignMsg m /\ ~ open s real /\ open s attacker /\ exists p, In (attacker, p) (peers s) /\ p_node p = Some (my_id t_addr t_key 2).
Proof.
  exists (t_first ++ [(20%Z, Accept 5 "6.6.6.6" 77)]), 5, 0, 12, 2077, 77. split; [reflexivity|]. split.
  - exists "1.1.1.1"%string. split; [vm_compute; tauto|]. eexists. split; [vm_compute; right; left; reflexivity|reflexivity].
  - split; [discriminate|]. split; [vm_compute; reflexivity|]. split; [|split].
    + intros [h H]. vm_compute in H. repeat (destruct H as [H|H]; [discriminate|]). exact H.
    + exists "6.6.6.6"%string. vm_compute. tauto.
    + eexists. split; [vm_compute; left; reflexivity|reflexivity].
Qed.
Print Assumptions C120_relay_refuted.

(** C120 is false in this form: "an address that is kicked is banned".  If there is no connection to it at the time nothing happens. *)
Theorem C120_kick_refuted : exists l a h, ~ In a (blocked (t_run (l ++ [(11%Z, Kick a)]))) /\ open (t_run (l ++ [(11%Z, Kick a); (12%Z, Accept 5 h 3)])) 5 /\ t_resolve h = a.
Proof.
  exists t_first, "6.6.6.6"%string, "6.6.6.6"%string. split; [|split; [|reflexivity]].
  - intros H. vm_compute in H. repeat (destruct H as [H|H]; [discriminate|]). exact H.
  - exists "6.6.6.6"%string. vm_compute. tauto.
Qed.
Print Assumptions C120_kick_refuted.

(** C121 is false in this form: "other nodes are not told of addresses in private networks": 172.16.0.0/12 is not looked for *)
Theorem C121_private_refuted : exists l, In "172.16.0.5"%string (get_peers (fun x => x) 10 (t_run l)).
Proof. exists [(1%Z, Accept 0 "172.16.0.5" 5)]. vm_compute. tauto. Qed.
Print Assumptions C121_private_refuted.

(** C121 is false in this form: "no host is dialled twice at the same time": one that is dialled by its name is dialled again by its address *)
Theorem C121_twice_refuted : exists cfg l, let s := run t_resolve (fun _ => true) t_addr t_verify t_key 1 cfg ["9.9.9.9"%string] [] l in
  fixed cfg = ["seed.mmx"%string] /\ exists c c', opening s c "seed.mmx" /\ opening s c' "9.9.9.9" /\ t_resolve "seed.mmx" = "9.9.9.9"%string.
Proof.
  exists (mk_config 1 1000 0 10 100 ["seed.mmx"%string] []), [(1%Z, Connect (fun _ => 0%Z) (fun l => l) (fun l => l))]. split; [reflexivity|]. exists 0, 1. split; [vm_compute; tauto|split; [vm_compute; tauto|reflexivity]].
Qed.
Print Assumptions C121_twice_refuted.
