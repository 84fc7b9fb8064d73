(** What is expected of passing messages on, in terms of what happened and what could be seen. *)
Require Import List NArith Bool.
Require Import Verif.FetchModel Verif.RelayModel.
Import List.
Import ListNotations.
Open Scope N_scope.

(** the hashes that were new, in order *)
Definition seen (o : list out) : list N := flat_map (fun x => match x with Seen h => [h] | _ => [] end) o.
Definition count {A} (f : A -> bool) (l : list A) : nat := length (filter f l).
Definition is_seen (h : N) (x : out) : bool := match x with Seen k => k =? h | _ => false end.
Definition is_publish (h : N) (x : out) : bool := match x with Publish m => m_hash m =? h | _ => false end.
Definition is_relay (h : N) (x : out) : bool := match x with Relay _ m => m_hash m =? h | _ => false end.
(** written to a connection; proofs of time are also sent to every new connection and are not counted *)
Definition is_sent (c h : N) (x : out) : bool :=
  match x with Sent d m => (d =? c) && (m_hash m =? h) && negb (kind_eqb (m_kind m) KVdf) | _ => false end.
(** passed on before it was verified *)
Definition early_block (vdf key : N) (x : out) : bool :=
  match x with Relay false m => kind_eqb (m_kind m) KBlock && (m_vdf m =? vdf) && (m_key m =? key) | _ => false end.
Definition early_vdf (key : N) (x : out) : bool :=
  match x with Relay false m => kind_eqb (m_kind m) KVdf && (m_key m =? key) | _ => false end.
(** the node verified a proof of space of a farmer, a proof of time of a timelord *)
Definition proof_of (vdf key : N) (e : event) : bool :=
  match e with EHandle _ _ m _ => kind_eqb (m_kind m) KProof && (m_vdf m =? vdf) && (m_key m =? key) | _ => false end.
Definition vdf_of (key : N) (e : event) : bool := match e with EHandle _ _ m _ => kind_eqb (m_kind m) KVdf && (m_key m =? key) | _ => false end.
(** shuffling keeps each element once *)
Definition shuffles (e : event) : Prop :=
  match e with EHandle _ s _ _ | ERecv _ s _ _ => forall l, NoDup l -> NoDup (s l) /\ forall c, In c (s l) <-> In c l | _ => True end.
(** the peer has shown that it has the message *)
Definition told (c h : N) (l : list event) : Prop :=
  In (ENote c h) l \/ exists now s m, In (ERecv now s c m) l /\ m_hash m = h.
(** a message of our own: from the wallet, timelord or farmer of this node, a block nobody has shown us before, a VDF point *)
Definition own (m : msg) (local : bool) (o : list out) : Prop :=
  match m_kind m with
  | KTx | KVdf | KProof => local = true
  | KBlock => ~ In (Seen (m_hash m)) o
  | KPoint => True
  | KVote => False
  end.
(** whom it is for *)
Definition meant (m : msg) (t : ntype) (synced : bool) : bool :=
  match m_kind m with
  | KTx => match t with Full => synced | _ => false end
  | KProof => match t with Full => true | _ => false end
  | _ => match t with Full | Light => true | OtherType => false end
  end.
(** the peers it is for, and the time between two of them when it is spread over [target] microseconds *)
Definition wanted (m : msg) (r : router) : list N := map fst (filter (fun e => meant m (p_type (snd e)) (p_synced (snd e))) (r_peers r)).
Definition gap (target : N) (m : msg) (r : router) : N := target / (1 + N.of_nat (length (wanted m r))).
(** the message was written to the connection *)
Definition sent_to (c h : N) (o : list out) : Prop := exists m, In (Sent c m) o /\ m_hash m = h.
(** the connection stays *)
Definition keeps (c : N) (e : event) : Prop := e <> EInvalid c /\ e <> EGone c /\ forall b, e <> EConnect c b.
(** the peer shows that it has the message: by a note, or by sending the message, unless it is malformed or too old to be looked at *)
Definition shows (commit_delay c h : N) (r : router) (e : event) : Prop :=
  match e with
  | ENote d k => d = c /\ k = h
  | ERecv _ _ d m => d = c /\ m_hash m = h /\ m_ok m = true /\
    match m_kind m with
    | KBlock => r_peak r <= m_height m + commit_delay
    | KVdf => r_vdf r <= m_vdf m + commit_delay
    | KPoint => exists p, get c (r_peers r) = Some p /\ p_master p = true
    | _ => True
    end
  | _ => False
  end.
(** what the peer tells us and what it is sent *)
Definition from (c : N) (e : event) : bool := match e with ENote d _ | ERecv _ _ d _ => d =? c | _ => false end.
Definition to (c : N) (x : out) : bool := match x with Sent d _ => d =? c | _ => false end.
(** it is the same connection *)
Definition stays (c : N) (e : event) : Prop := e <> EGone c /\ forall b, e <> EConnect c b.
