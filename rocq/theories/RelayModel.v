(** Passing messages on to other nodes: /repo/src/Router.cpp.
    Clients, hashes, keys, heights and times (in microseconds) are numbers; sets and maps are lists. *)
Require Import List Arith NArith Bool.
Require Import Verif.FetchModel.
Import ListNotations.
Open Scope N_scope.

(** Block, Transaction, ProofOfTime, VDF_Point, ProofResponse, ValidatorVote *)
Inductive kind := KBlock | KTx | KVdf | KPoint | KProof | KVote.
Definition kind_eqb (a b : kind) : bool :=
  match a, b with KBlock, KBlock | KTx, KTx | KVdf, KVdf | KPoint, KPoint | KProof, KProof | KVote, KVote => true | _, _ => false end.
(** what matters of a message: [m_hash]: content_hash; [m_key]: farmer_key or timelord_key; [m_ok]: is_valid (for a transaction also that it has no exec_result);
    [m_sig]: validate() does not throw; [m_short]: fewer than max_vdf_segments segments; [m_proof]: a ProofResponse has a proof.
    That VDF_Point and ProofResponse are passed on without local information does not matter here. *)
Record msg := mk_msg { m_kind : kind; m_hash : N; m_vdf : N; m_height : N; m_key : N; m_ok : bool; m_sig : bool; m_short : bool; m_proof : bool }.

Inductive ntype := Full | Light | OtherType.
(** Router.h: send_item_t, peer_t *)
Record item := mk_item { i_msg : msg; i_reliable : bool }.
Record peer := mk_peer {
  p_type : ntype; p_synced : bool; p_valid : bool; p_master : bool;
  p_sent : list N; p_hashes : list N;                   (** sent_hashes, hash_queue *)
  p_queue : list (N * item) }.                          (** send_queue: sorted by time *)
(** Router.h; hash_info: with did_relay *)
Record router := mk_router {
  r_info : list (N * bool); r_hashes : list N; r_peers : list (N * peer);
  r_vdfs : list (N * msg); r_farmers : list (N * N); r_timelords : list (N * N); r_ours : list N;
  r_vdf : N; r_peak : N }.
Definition router0 : router := mk_router [] [] [] [] [] [] [] 0 0.

(** what can be seen: a hash is new and all peers are told so; a message is given to the node; a message is put into the queues of peers ([v]: after it was verified, or is ours);
    a message is written to a connection; a connection is closed *)
Inductive out := Seen (h : N) | Publish (m : msg) | Relay (v : bool) (m : msg) | Sent (c : N) (m : msg) | Close (c : N).

Section RELAY.
  Variables (max_hash_cache max_sent_cache : nat) (relay_target commit_delay : N) (do_relay : bool).

  Definition set_peer (r : router) (c : N) (p : peer) : router :=
    mk_router (r_info r) (r_hashes r) (map (fun e => if fst e =? c then (c, p) else e) (r_peers r)) (r_vdfs r) (r_farmers r) (r_timelords r) (r_ours r) (r_vdf r) (r_peak r).
  Definition set_info (r : router) (i : list (N * bool)) (q : list N) : router :=
    mk_router i q (r_peers r) (r_vdfs r) (r_farmers r) (r_timelords r) (r_ours r) (r_vdf r) (r_peak r).
  Definition set_peers (r : router) (p : list (N * peer)) : router :=
    mk_router (r_info r) (r_hashes r) p (r_vdfs r) (r_farmers r) (r_timelords r) (r_ours r) (r_vdf r) (r_peak r).

  (** the first part of relay_msg_hash and receive_msg_hash *)
  Definition note_hash (r : router) (h : N) : router * bool * list out :=
    match get h (r_info r) with
    | Some _ => (r, false, [])
    | None => (set_info r ((h, false) :: r_info r) (r_hashes r ++ [h]), true, [Seen h])
    end.
  (** Router.cpp:1733-1746 *)
  Definition relay_msg_hash (r : router) (h : N) : router * bool * list out :=
    let '(r, _, o) := note_hash r h in
    match get h (r_info r) with
    | Some true => (r, false, o)
    | _ => (set_info r (map (fun e => if fst e =? h then (h, true) else e) (r_info r)) (r_hashes r), true, o)
    end.
  (** peer->sent_hashes.insert(hash) and hash_queue.push *)
  Definition mark_sent (h : N) (p : peer) : peer :=
    if mem h (p_sent p) then p
    else mk_peer (p_type p) (p_synced p) (p_valid p) (p_master p) (h :: p_sent p) (p_hashes p ++ [h]) (p_queue p).
  Definition mark (r : router) (c h : N) : router :=
    match get c (r_peers r) with Some p => set_peer r c (mark_sent h p) | None => r end.
  (** Router.cpp:1748-1761 *)
  Definition receive_msg_hash (r : router) (h c : N) : router * bool * list out :=
    let '(r, is_new, o) := note_hash r h in (mark r c h, is_new, o).

  (** std::map::emplace: nothing happens if there is an entry for that time already *)
  Fixpoint enqueue (t : N) (i : item) (q : list (N * item)) : list (N * item) :=
    match q with
    | [] => [(t, i)]
    | (t', i') :: q' => if t =? t' then q else if t <? t' then (t, i) :: q else (t', i') :: enqueue t i q'
    end.
  Definition queue_at (r : router) (c t : N) (i : item) : router :=
    match get c (r_peers r) with
    | Some p => set_peer r c (mk_peer (p_type p) (p_synced p) (p_valid p) (p_master p) (p_sent p) (p_hashes p) (enqueue t i (p_queue p)))
    | None => r
    end.
  (** Router.cpp:1172-1186; [clients]: after shuffling *)
  Fixpoint queue_all (r : router) (clients : list N) (t interval : N) (i : item) : router :=
    match clients with
    | [] => r
    | c :: l => queue_all (queue_at r c t i) l (t + interval) interval i
    end.
  (** Router.cpp:1195-1209; [shuffle]: the order that std::shuffle makes *)
  Definition targets (filter : ntype -> bool) (synced_only : bool) (r : router) : list N :=
    map fst (List.filter (fun e => (negb synced_only || p_synced (snd e)) && filter (p_type (snd e))) (r_peers r)).
  Definition broadcast (r : router) (now : N) (shuffle : list N -> list N) (m : msg) (filter : ntype -> bool) (reliable synced_only : bool) : router :=
    let clients := shuffle (targets filter synced_only r) in
    queue_all r clients now (relay_target / (1 + N.of_nat (length clients))) (mk_item m reliable).
  Definition full (t : ntype) : bool := match t with Full => true | _ => false end.
  Definition full_light (t : ntype) : bool := match t with Full | Light => true | _ => false end.
  (** Router.cpp:1188-1193 *)
  Definition relay (r : router) (now : N) (shuffle : list N -> list N) (m : msg) (filter : ntype -> bool) : router :=
    if do_relay then broadcast r now shuffle m filter false false else r.

  Definition set_credit (r : router) (f t : list (N * N)) : router :=
    mk_router (r_info r) (r_hashes r) (r_peers r) (r_vdfs r) f t (r_ours r) (r_vdf r) (r_peak r).
  Definition pair_eqb (a b : N * N) : bool := (fst a =? fst b) && (snd a =? snd b).
  Definition has_credit (k : N * N) (l : list (N * N)) : bool := existsb (pair_eqb k) l.
  Definition use_credit (k : N * N) (l : list (N * N)) : list (N * N) := filter (fun x => negb (pair_eqb k x)) l.

  (** ** what the node, the timelord, the farmer and the wallet publish: Router.cpp:302-405.
      [local]: for a transaction and a proof of time, that it was published for input (input_transactions, input_vdfs); for a ProofResponse, that its farmer is ours *)
  Definition handle (r : router) (now : N) (shuffle : list N -> list N) (m : msg) (local : bool) : router * list out :=
    match m_kind m with
    | KBlock =>
      let is_ours := match get (m_hash m) (r_info r) with Some _ => false | None => true end in
      let '(r, ok, o) := relay_msg_hash r (m_hash m) in
      let r := if ok then broadcast r now shuffle m full_light is_ours false else r in
      (mk_router (r_info r) (r_hashes r) (r_peers r) (filter (fun e => r_vdf r <? fst e) (r_vdfs r)) (filter (fun e => r_vdf r <? fst e) (r_farmers r)) (r_timelords r) (r_ours r)
                 (m_vdf m) (m_height m), if ok then o ++ [Relay true m] else o)
    | KTx =>
      let '(r, ok, o) := relay_msg_hash r (m_hash m) in
      if ok then
        if local then (broadcast r now shuffle m full true true, o ++ [Relay true m])
        else (relay r now shuffle m full, o ++ (if do_relay then [Relay true m] else []))
      else (r, o)
    | KVdf =>
      let r := if local then mk_router (r_info r) (r_hashes r) (r_peers r) (r_vdfs r) (r_farmers r) (r_timelords r) (add (m_key m) (r_ours r)) (r_vdf r) (r_peak r) else r in
      if local && (m_vdf m <=? r_vdf r) then (r, [])
      else
        let is_ours := mem (m_key m) (r_ours r) in
        let '(r, ok, o) := relay_msg_hash r (m_hash m) in
        let r := if ok then broadcast r now shuffle m full_light is_ours false else r in
        (mk_router (r_info r) (r_hashes r) (r_peers r) (if ok then r_vdfs r ++ [(m_vdf m, m)] else r_vdfs r) (r_farmers r) (put (m_key m) 1 (r_timelords r)) (r_ours r)
                   (N.max (r_vdf r) (m_vdf m)) (r_peak r), if ok then o ++ [Relay true m] else o)
    | KPoint =>
      let '(r, ok, o) := relay_msg_hash r (m_hash m) in
      if ok then (broadcast r now shuffle m full_light true false, o ++ [Relay true m]) else (r, o)
    | KProof =>
      if m_proof m then
        let '(r, ok, o) := relay_msg_hash r (m_hash m) in
        if ok then
          let r := broadcast r now shuffle m full local false in
          (set_credit r (if has_credit (m_vdf m, m_key m) (r_farmers r) then r_farmers r else (m_vdf m, m_key m) :: r_farmers r) (r_timelords r), o ++ [Relay true m])
        else (r, o)
      else (r, [])
    | KVote =>
      let '(r, ok, o) := relay_msg_hash r (m_hash m) in
      if ok then (broadcast r now shuffle m full_light false false, o ++ [Relay true m]) else (r, o)
    end.

  (** ** what comes from a peer: Router.cpp:1013-1125 *)
  Definition on_vdf (r : router) (now : N) (shuffle : list N -> list N) (c : N) (m : msg) : router * list out :=
    if m_vdf m + commit_delay <? r_vdf r then (r, [])
    else if negb (m_ok m) then (r, [Close c])
    else
      let '(r, is_new, o) := receive_msg_hash r (m_hash m) c in
      if is_new then
        if negb (m_sig m) then (r, o ++ [Close c])
        else
          let '(r, o) :=
            if m_short m then
              match get (m_key m) (r_timelords r) with
              | Some n =>
                if 0 <? n then
                  let '(r, ok, o') := relay_msg_hash r (m_hash m) in
                  if ok then (relay (set_credit r (r_farmers r) (put (m_key m) (n - 1) (r_timelords r))) now shuffle m full_light, o ++ o' ++ (if do_relay then [Relay false m] else []))
                  else (r, o ++ o')
                else (r, o)
              | None => (r, o)
              end
            else (r, o) in
          (r, o ++ [Publish m])
      else (r, o).
  Definition on_block (r : router) (now : N) (shuffle : list N -> list N) (c : N) (m : msg) : router * list out :=
    if m_height m + commit_delay <? r_peak r then (r, [])
    else if negb (m_ok m) then (r, [Close c])
    else
      let '(r, is_new, o) := receive_msg_hash r (m_hash m) c in
      if is_new then
        if negb (m_sig m) then (r, o ++ [Close c])
        else
          let k := (m_vdf m, m_key m) in
          let '(r, o) :=
            if has_credit k (r_farmers r) then
              let r := set_credit r (use_credit k (r_farmers r)) (r_timelords r) in
              let '(r, ok, o') := relay_msg_hash r (m_hash m) in
              if ok then (relay r now shuffle m full_light, o ++ o' ++ (if do_relay then [Relay false m] else [])) else (r, o ++ o')
            else (r, o) in
          (r, o ++ [Publish m])
      else (r, o).
  (** on_vote, on_proof, on_transaction *)
  Definition on_other (r : router) (c : N) (m : msg) : router * list out :=
    if negb (m_ok m) then (r, [Close c])
    else let '(r, is_new, o) := receive_msg_hash r (m_hash m) c in (r, if is_new then o ++ [Publish m] else o).
  (** only from master nodes *)
  Definition on_vdf_point (r : router) (c : N) (m : msg) : router * list out :=
    match get c (r_peers r) with
    | Some p => if p_master p && m_ok m then let '(r, is_new, o) := receive_msg_hash r (m_hash m) c in (r, if is_new then o ++ [Publish m] else o) else (r, [])
    | None => (r, [])
    end.
  Definition on_msg (r : router) (now : N) (shuffle : list N -> list N) (c : N) (m : msg) : router * list out :=
    match m_kind m with
    | KVdf => on_vdf r now shuffle c m
    | KBlock => on_block r now shuffle c m
    | KPoint => on_vdf_point r c m
    | _ => on_other r c m
    end.

  (** Router.cpp:1218-1270 for what is in the queue; [ok]: what becomes of unreliable messages (the connection is blocked, the budget for transactions is used up);
      writing to a connection that is valid is taken to succeed *)
  Definition send_item (ok : msg -> bool) (p : peer) (i : item) : bool := p_valid p && (i_reliable i || ok (i_msg i)).
  Fixpoint send_queue (now : N) (ok : msg -> bool) (c : N) (p : peer) (q : list (N * item)) : peer * list (N * item) * list out :=
    match q with
    | [] => (p, [], [])
    | (t, i) :: q' =>
      if t <? now then
        if negb (mem (m_hash (i_msg i)) (p_sent p)) && send_item ok p i then
          let '(p', rest, o) := send_queue now ok c (mark_sent (m_hash (i_msg i)) p) q' in (p', rest, Sent c (i_msg i) :: o)
        else send_queue now ok c p q'
      else (p, q, [])
    end.
  (** Router.cpp:1150-1170 *)
  Definition send_peer (now : N) (ok : N -> msg -> bool) (c : N) (p : peer) : peer * list out :=
    let '(p', rest, o) := send_queue now (ok c) c p (p_queue p) in
    (mk_peer (p_type p') (p_synced p') (p_valid p') (p_master p') (p_sent p') (p_hashes p') rest, o).
  Fixpoint send_peers (now : N) (ok : N -> msg -> bool) (l : list (N * peer)) : list (N * peer) * list out :=
    match l with
    | [] => ([], [])
    | (c, p) :: l => let '(p, o) := send_peer now ok c p in let '(l, o') := send_peers now ok l in ((c, p) :: l, o ++ o')
    end.

  (** Router.cpp:434-439 *)
  Definition trim_peer (p : peer) : peer :=
    let n := (length (p_hashes p) - max_sent_cache)%nat in
    mk_peer (p_type p) (p_synced p) (p_valid p) (p_master p) (filter (fun h => negb (mem h (firstn n (p_hashes p)))) (p_sent p)) (skipn n (p_hashes p)) (p_queue p).
  (** Router.cpp:452-456 *)
  Definition trim (r : router) : router :=
    let n := (length (r_hashes r) - max_hash_cache)%nat in
    set_info r (filter (fun e => negb (mem (fst e) (firstn n (r_hashes r)))) (r_info r)) (skipn n (r_hashes r)).

  (** what happens: messages from the own node, messages and notes (ReceiveNote, 1127-1139) from peers, update(), send(), connections that are made (on_connect, 1631-1664), that become invalid
      (on_disconnect, 1668-1672) and are removed (1673-1691), answers about the type of a node and whether it is synced (1458-1530) *)
  Inductive event := EHandle (now : N) (shuffle : list N -> list N) (m : msg) (local : bool) | ERecv (now : N) (shuffle : list N -> list N) (c : N) (m : msg) | ENote (c h : N)
    | EUpdate | ESend (now : N) (ok : N -> msg -> bool) | EConnect (c : N) (master : bool) | EInvalid (c : N) | EGone (c : N) | EType (c : N) (t : ntype) | ESynced (c : N) (b : bool).
  Definition upd (r : router) (c : N) (f : peer -> peer) : router := match get c (r_peers r) with Some p => set_peer r c (f p) | None => r end.
  Definition step (r : router) (e : event) : router * list out :=
    match e with
    | EHandle now shuffle m local => handle r now shuffle m local
    | ERecv now shuffle c m => on_msg r now shuffle c m
    | ENote c h => (mark r c h, [])
    | EUpdate => (trim (set_peers r (map (fun e => (fst e, trim_peer (snd e))) (r_peers r))), [])
    | ESend now ok => let '(l, o) := send_peers now ok (r_peers r) in (set_peers r l, o)
    | EConnect c master =>
      (set_peers r ((c, mk_peer Full false true master [] [] []) :: erase c (r_peers r)), map (fun e => Sent c (snd e)) (r_vdfs r))
    | EInvalid c => (upd r c (fun p => mk_peer (p_type p) (p_synced p) false (p_master p) (p_sent p) (p_hashes p) (p_queue p)), [])
    | EGone c => (set_peers r (erase c (r_peers r)), [])
    | EType c t => (upd r c (fun p => mk_peer t (p_synced p) (p_valid p) (p_master p) (p_sent p) (p_hashes p) (p_queue p)), [])
    | ESynced c b => (upd r c (fun p => mk_peer (p_type p) b (p_valid p) (p_master p) (p_sent p) (p_hashes p) (p_queue p)), [])
    end.
  (** from the start *)
  Definition step_out (x : router * list out) (e : event) : router * list out := let '(r, o) := x in let '(r', o') := step r e in (r', o ++ o').
  Definition run (l : list event) : router * list out := fold_left step_out l (router0, []).
End RELAY.
