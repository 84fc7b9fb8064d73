(** Peers of the network router: connecting, the exchange of identities, the list of synced peers, bans and the choice of peers to connect to.  Text of hosts and addresses is Coq's [string]; hashes, keys and signatures are numbers. *)
Require Import List Arith NArith ZArith Bool String.
Import ListNotations.
Open Scope N_scope.

(** std::string operator== *)
Infix "==" := String.eqb (at level 70, no associativity).

(** std::map and std::set by a key: src/Router.cpp uses find, count, erase and operator[] on them.  Simplified: association lists, the order of the entries is not that of the keys (except for [sset]). *)
Definition get {V} (c : N) (l : list (N * V)) : option V := match List.find (fun e => fst e =? c) l with Some e => Some (snd e) | None => None end.
Definition del {V} (c : N) (l : list (N * V)) : list (N * V) := filter (fun e => negb (fst e =? c)) l.
Definition upd {V} (c : N) (f : V -> V) (l : list (N * V)) : list (N * V) := map (fun e => if fst e =? c then (fst e, f (snd e)) else e) l.
Definition sget {V} (k : string) (l : list (string * V)) : option V := match List.find (fun e => fst e == k) l with Some e => Some (snd e) | None => None end.
Definition sdel {V} (k : string) (l : list (string * V)) : list (string * V) := filter (fun e => negb (fst e == k)) l.
Definition sput {V} (k : string) (v : V) (l : list (string * V)) : list (string * V) := (k, v) :: sdel k l.
Definition smem (k : string) (l : list string) : bool := existsb (String.eqb k) l.
Definition srem (k : string) (l : list string) : list string := filter (fun x => negb (x == k)) l.
(** std::set<std::string>::insert: sorted, without duplicates *)
Fixpoint sins_ (k : string) (l : list string) : list string :=
  match l with
  | [] => [k]
  | x :: r => match String.compare k x with Lt => k :: l | _ => x :: sins_ k r end
  end.
Definition sins (k : string) (l : list string) : list string := if smem k l then l else sins_ k l.
Definition nmem (c : N) (l : list N) : bool := existsb (N.eqb c) l.
Definition nrem (c : N) (l : list N) : list N := filter (fun x => negb (x =? c)%N) l.

(** Router.h:97-125 (peer_t, PeerInfo fields): what the functions below use of it *)
Record peer := mk_peer {
  p_addr : string;            (* address *)
  p_host : string;            (* host_name *)
  p_chal : N;                 (* challenge *)
  p_id : N;                   (* info.id *)
  p_ver : N;                  (* info.version *)
  p_full : bool;              (* info.type == FULL_NODE *)
  p_node : option N;          (* node_id *)
  p_out : bool;               (* is_outbound *)
  p_sync : bool;              (* is_synced *)
  p_height : N;               (* height *)
  p_since : Z;                (* connected_since_ms *)
  p_last : Z                  (* last_receive_ms *)
}.
Definition set_info (i v : N) (f : bool) (p : peer) := mk_peer (p_addr p) (p_host p) (p_chal p) i v f (p_node p) (p_out p) (p_sync p) (p_height p) (p_since p) (p_last p).
Definition set_node (i : N) (p : peer) := mk_peer (p_addr p) (p_host p) (p_chal p) (p_id p) (p_ver p) (p_full p) (Some i) (p_out p) (p_sync p) (p_height p) (p_since p) (p_last p).
Definition set_sync (b : bool) (p : peer) := mk_peer (p_addr p) (p_host p) (p_chal p) (p_id p) (p_ver p) (p_full p) (p_node p) (p_out p) b (p_height p) (p_since p) (p_last p).
Definition set_height (h : N) (p : peer) := mk_peer (p_addr p) (p_host p) (p_chal p) (p_id p) (p_ver p) (p_full p) (p_node p) (p_out p) (p_sync p) h (p_since p) (p_last p).
Definition set_last (t : Z) (p : peer) := mk_peer (p_addr p) (p_host p) (p_chal p) (p_id p) (p_ver p) (p_full p) (p_node p) (p_out p) (p_sync p) (p_height p) (p_since p) t.

(** src/Router.cpp:1301-1430 and 1431-1555: the requests and the answers that concern peers *)
Inductive req := GetId | GetInfo | SignMsg (m : N) | GetPeers (max : N) | GetSynced | GetHeight | GetBlockHash (h : N) | OtherReq.
Inductive ans := Id (i : N) | Info (i v : N) (full : bool) | Signed (key sig : N) | Peers (l : list string) | Synced (h : option N) | Height (h : N)
  | BlockHash (id : N) (h : option N) | NoSuchMethod | Overflow.

Record config := mk_config { num_out : nat; conn_timeout : Z; disc_interval : Z; retry_interval : Z; max_peer_set : nat; fixed : list string; seeds : list string }.

(** The state of the router.  [conns] stands for the TCP server that Router derives from: one entry for each client that connects (false) or is connected (true); it gives out each client number once. *)
Record st := mk_st {
  conns : list (N * (string * bool));
  next : N;
  peers : list (N * peer);            (* peer_map *)
  addrs : list (string * N);          (* peer_addr_map, a multimap *)
  synced : list N;                    (* synced_peers *)
  dials : list (string * N);          (* connect_tasks *)
  known : list string;                (* peer_set *)
  retry : list (string * Z);          (* peer_retry_map *)
  blocked : list string;              (* block_peers *)
  selfs : list string;                (* self_addrs *)
  tasks : list (N * string);          (* add_task *)
  check : N * N;                      (* peer_check: request_id, our_hash *)
  out : list (N * req)                (* requests sent, latest first *)
}.
Definition set_conns x s := mk_st x (next s) (peers s) (addrs s) (synced s) (dials s) (known s) (retry s) (blocked s) (selfs s) (tasks s) (check s) (out s).
Definition set_next x s := mk_st (conns s) x (peers s) (addrs s) (synced s) (dials s) (known s) (retry s) (blocked s) (selfs s) (tasks s) (check s) (out s).
Definition set_peers x s := mk_st (conns s) (next s) x (addrs s) (synced s) (dials s) (known s) (retry s) (blocked s) (selfs s) (tasks s) (check s) (out s).
Definition set_addrs x s := mk_st (conns s) (next s) (peers s) x (synced s) (dials s) (known s) (retry s) (blocked s) (selfs s) (tasks s) (check s) (out s).
Definition set_synced x s := mk_st (conns s) (next s) (peers s) (addrs s) x (dials s) (known s) (retry s) (blocked s) (selfs s) (tasks s) (check s) (out s).
Definition set_dials x s := mk_st (conns s) (next s) (peers s) (addrs s) (synced s) x (known s) (retry s) (blocked s) (selfs s) (tasks s) (check s) (out s).
Definition set_known x s := mk_st (conns s) (next s) (peers s) (addrs s) (synced s) (dials s) x (retry s) (blocked s) (selfs s) (tasks s) (check s) (out s).
Definition set_retry x s := mk_st (conns s) (next s) (peers s) (addrs s) (synced s) (dials s) (known s) x (blocked s) (selfs s) (tasks s) (check s) (out s).
Definition set_blocked x s := mk_st (conns s) (next s) (peers s) (addrs s) (synced s) (dials s) (known s) (retry s) x (selfs s) (tasks s) (check s) (out s).
Definition set_selfs x s := mk_st (conns s) (next s) (peers s) (addrs s) (synced s) (dials s) (known s) (retry s) (blocked s) x (tasks s) (check s) (out s).
Definition set_tasks x s := mk_st (conns s) (next s) (peers s) (addrs s) (synced s) (dials s) (known s) (retry s) (blocked s) (selfs s) x (check s) (out s).
Definition set_check x s := mk_st (conns s) (next s) (peers s) (addrs s) (synced s) (dials s) (known s) (retry s) (blocked s) (selfs s) (tasks s) x (out s).
Definition send (c : N) (r : req) s := mk_st (conns s) (next s) (peers s) (addrs s) (synced s) (dials s) (known s) (retry s) (blocked s) (selfs s) (tasks s) (check s) ((c, r) :: out s).

(** src/Router.cpp:174-181 is_valid_address *)
Definition is_valid_address (a : string) : bool := negb (a == ""%string) && negb (prefix "127."%string a) && negb (a == "0.0.0.0"%string).
(** src/Router.cpp:183-190 is_public_address *)
Definition is_public_address (a : string) : bool := is_valid_address a && negb (prefix "10."%string a) && negb (prefix "192.168."%string a).

(** src/Router.cpp:192-201 get_subset: [shuffle] stands for std::shuffle with the random engine *)
Definition get_subset {A : Type} (shuffle : list A -> list A) (candidates : list A) (max_count : N) : list A :=
  if max_count <? N.of_nat (List.length candidates) then firstn (N.to_nat max_count) (shuffle candidates) else candidates.

(** src/Router.cpp:203-230 get_peers, get_known_peers, get_connected_peers *)
Definition get_peers (shuffle : list string -> list string) (max_count : N) (s : st) : list string :=
  let all := known s ++ map (fun e => p_addr (snd e)) (peers s) in
  get_subset shuffle (fold_left (fun acc a => if is_public_address a then sins a acc else acc) all []) max_count.

Section ROUTER.
  Variables (resolve : string -> string) (is_ip : string -> bool) (addr_of : N -> N) (verify : N -> N -> N -> bool) (sign : N -> N -> N) (key_of : N -> N)
    (skey my_version : N) (cfg : config).

  (** src/Router.cpp:108-110, 154-157: the id of this node *)
  Definition my_id : N := addr_of (key_of skey).

  (** src/Router.cpp:1676-1680 on_disconnect, called by disconnect() of the TCP server for an open connection; is_valid of the peer is that it is still open.  The rest is put off to a task. *)
  Definition disconnect (c : N) (s : st) : st :=
    match get c (conns s) with
    | Some (h, _) => set_tasks (tasks s ++ [(c, h)]) (set_conns (del c (conns s)) s)
    | None => s
    end.

  (** src/Router.cpp:1682-1698: the task of on_disconnect *)
  Definition run_task (now : Z) (c : N) (h : string) (s : st) : st :=
    let a := resolve h in
    let s := match get c (peers s) with
             | Some p => set_addrs (filter (fun e => negb ((fst e == p_addr p) && (snd e =? c)%N)) (addrs s)) s
             | None => s
             end in
    let s := match sget h (dials s) with
             | Some c' => if (c' =? c)%N then set_dials (sdel h (dials s)) (set_known (srem a (srem h (known s))) s) else s
             | None => s
             end in
    set_retry (sput a (now / 1000 + retry_interval cfg * 60)%Z (retry s)) (set_synced (nrem c (synced s)) (set_peers (del c (peers s)) s)).

  (** src/Router.cpp:1629-1671 on_connect.  The challenge is random: it is an argument.  The history of VDFs that is sent is left out. *)
  Definition on_connect (now : Z) (c : N) (h : string) (chal : N) (s : st) : st :=
    let a := resolve h in
    if smem a (blocked s) then disconnect c s
    else
      let mine := match sget h (dials s) with Some c' => (c' =? c)%N | None => false end in
      let s := if mine then set_dials (sdel h (dials s)) (set_known (sins a (known s)) s) else s in
      let s := set_peers ((c, mk_peer a h chal 0 0 true None mine false 0 now 0) :: del c (peers s)) s in
      let s := set_addrs ((a, c) :: addrs s) s in
      let s := send c GetSynced (send c GetInfo (send c GetId s)) in
      if (List.length (known s) <? max_peer_set cfg)%nat then send c (GetPeers 10) s else s.

  (** src/Router.cpp:786-811 connect_to: connect_client of the TCP server gives a new client.  A host that has no address is left out (an exception is caught). *)
  Definition connect_to (h : string) (s : st) : st :=
    match sget h (dials s) with
    | Some _ => s
    | None => if resolve h == ""%string then s
              else set_dials ((h, next s) :: dials s) (set_next (next s + 1) (set_conns ((next s, (h, false)) :: conns s) s))
    end.

  (** src/Router.cpp:1000-1011 ban_peer *)
  Definition ban_peer (c : N) (s : st) : st :=
    let s := if 1000000 <=? N.of_nat (List.length (blocked s)) then set_blocked (tl (blocked s)) s else s in
    match get c (peers s) with
    | Some p => disconnect c (set_blocked (sins (p_addr p) (blocked s)) s)
    | None => s
    end.

  (** src/Router.cpp:1733-1741 find_peers and 264-269 kick_peer *)
  Definition find_peers (a : string) (s : st) : list N := map snd (filter (fun e => fst e == a) (addrs s)).
  Definition kick_peer (a : string) (s : st) : st := fold_left (fun s c => ban_peer c s) (find_peers a s) s.

  (** src/Router.cpp:1301-1352 on_request: what is answered at once, from the state of the router.  The requests that go to the node and the refusal of a peer whose connection is blocked are left out. *)
  Definition answer (shuffle : list string -> list string) (r : req) (s : st) : option ans :=
    match r with
    | GetId => Some (Id my_id)
    | GetInfo => Some (Info my_id my_version true)
    | SignMsg m => Some (Signed (key_of skey) (sign skey m))
    | GetPeers n => Some (Peers (get_peers shuffle n s))
    | OtherReq => Some NoSuchMethod
    | _ => None
    end.

  (** src/Router.cpp:1481-1486: disconnect all that have this id *)
  Definition replace (i : N) (s : st) : st :=
    fold_left (fun s e => match p_node (snd e) with Some j => if (j =? i)%N then disconnect (fst e) s else s | None => s end) (peers s) s.

  (** src/Router.cpp:1431-1555 on_return, after process() has not taken the answer; 1557-1561 of on_msg *)
  Definition on_return (now : Z) (c : N) (a : ans) (s : st) : st :=
    let s := set_peers (upd c (set_last now) (peers s)) s in
    match a with
    | Id i => if (i =? my_id)%N
              then disconnect c (match get c (peers s) with Some p => set_selfs (sins (p_addr p) (selfs s)) s | None => s end)
              else s
    | Info i v f =>
      match get c (peers s) with
      | Some p => set_peers (upd c (set_info i v f) (peers s)) (if 103 <=? v then send c (SignMsg (p_chal p)) s else s)
      | None => s
      end
    | Signed key sig =>
      match get c (peers s) with
      | Some p => if (addr_of key =? p_id p)%N && verify key sig (p_chal p)
                  then let s := replace (addr_of key) s in set_peers (upd c (set_node (addr_of key)) (peers s)) s
                  else disconnect c s
      | None => s
      end
    | Peers l => set_retry (fold_left (fun r a => if is_valid_address a && is_ip a then match sget a r with Some _ => r | None => (a, 0%Z) :: r end else r) (firstn 10 l) (retry s)) s
    | Height h => set_peers (upd c (set_height h) (peers s)) s
    | Synced v =>
      match get c (peers s) with
      | Some p =>
        match v with
        | Some h => let s := set_peers (upd c (fun p => set_sync true (set_height h p)) (peers s)) s in
                    if p_full p then set_synced (c :: nrem c (synced s)) s else s
        | None => send c GetHeight (set_synced (nrem c (synced s)) (set_peers (upd c (set_sync false) (peers s)) s))
        end
      | None => s
      end
    | BlockHash id h =>
      if (id =? fst (check s))%N && negb (match h with Some x => (x =? snd (check s))%N | None => false end)
      then match get c (peers s) with Some p => if p_sync p then disconnect c s else s | None => s end
      else s
    | _ => s
    end.

  (** src/Router.cpp:271-295 update: the checks for timeouts *)
  Definition timed_out (now : Z) (p : peer) : bool :=
    ((0 <? conn_timeout cfg)%Z && (conn_timeout cfg <? now - Z.max (p_last p) (p_since p))%Z)
    || (negb (disc_interval cfg =? 0)%Z && negb (p_out p) && (disc_interval cfg <? (now - p_since p) / 1000)%Z).
  Definition update (now : Z) (s : st) : st := fold_left (fun s e => if timed_out now (snd e) then disconnect (fst e) s else s) (peers s) s.

  (** src/Router.cpp:825-837: the outbound peers by whether they are synced *)
  Definition outbound (s : st) : list (N * peer) := filter (fun e => p_out (snd e) && negb (smem (p_host (snd e)) (fixed cfg))) (peers s).
  Definition out_synced (s : st) : list N := map fst (filter (fun e => p_sync (snd e)) (outbound s)).
  Definition out_not_synced (now : Z) (s : st) : list N := map fst (filter (fun e => negb (p_sync (snd e)) && (conn_timeout cfg <? now - p_since (snd e))%Z) (outbound s)).

  (** src/Router.cpp:849-873: which of the known hosts to try.  [rnd] stands for vnx::rand64() % (peer_retry_interval * 60). *)
  Definition try_host (now : Z) (rnd : string -> Z) (full : bool) (h : string) (x : list string * st) : list string * st :=
    let '(t, s) := x in
    let a := resolve h in
    if negb (is_valid_address a) then (t, s)
    else
      let wait := match sget a (retry s) with Some at_ => (now / 1000 <? at_)%Z | None => true end in
      if full && wait then (t, match sget a (retry s) with Some _ => s | None => set_retry (sput a (now / 1000 + rnd a)%Z (retry s)) s end)
      else if existsb (fun e => fst e == a) (addrs s) || match sget h (dials s) with Some _ => true | None => false end
              || smem a (blocked s) || smem h (blocked s) || smem a (selfs s) || smem h (selfs s)
           then (t, s)
           else (sins a t, s).

  (** src/Router.cpp:875-882 *)
  Definition try_connect (a : string) (s : st) : st :=
    if (2 * num_out cfg <=? List.length (dials s))%nat then s else let s := connect_to a s in set_retry (sdel a (retry s)) s.

  (** src/Router.cpp:813-908 connect.  [all_peers] is a set of names: here in the order of the lists, without those that come again. *)
  Definition all_hosts (s : st) : list string := fold_left (fun acc h => sins h acc) (known s ++ map fst (retry s) ++ seeds cfg) [].
  Definition connect (now : Z) (rnd : string -> Z) (shuffle : list string -> list string) (shufflen : list N -> list N) (s : st) : st :=
    let s := fold_left (fun s h => if existsb (fun e => fst e == resolve h) (addrs s) then s else connect_to h s) (fixed cfg) s in
    let os := out_synced s in
    let on := out_not_synced now s in
    let n := num_out cfg in
    let '(t, s) := fold_left (fun x h => try_host now rnd (n <=? List.length os)%nat h x) (all_hosts s) ([], s) in
    let s := fold_left (fun s a => try_connect a s) (get_subset shuffle t (N.of_nat n)) s in
    let d1 := if (n + 1 <? List.length os)%nat then (List.length os - n)%nat else 0%nat in
    let s := fold_left (fun s c => disconnect c s) (get_subset shufflen os (N.of_nat d1)) s in
    let d2 := if (n <? List.length on)%nat then (List.length on - n)%nat else 0%nat in
    fold_left (fun s c => disconnect c s) (get_subset shufflen on (N.of_nat d2)) s.

  (** What can happen: a host connects to us (the TCP server gives it a new client number); a connection that was begun is made, or fails or breaks off ([Down]); an answer arrives; a task is run; the timers; the user kicks; the check for forks begins with a new request
      (src/Router.cpp:934-950). *)
  Inductive event :=
  | Accept (c : N) (h : string) (chal : N) | Up (c chal : N) | Down (c : N) | Answer (c : N) (a : ans) | Task | Update
  | Connect (rnd : string -> Z) (shuffle : list string -> list string) (shufflen : list N -> list N) | Kick (a : string) | Check (id hash : N).

  Definition step (s : st) (e : Z * event) : st :=
    let now := fst e in
    match snd e with
    | Accept c h chal => if next s <=? c then on_connect now c h chal (set_next (c + 1) (set_conns ((c, (h, true)) :: conns s) s)) else s
    | Up c chal => match get c (conns s) with
                   | Some (h, false) => on_connect now c h chal (set_conns ((c, (h, true)) :: del c (conns s)) s)
                   | _ => s
                   end
    | Down c => disconnect c s
    | Answer c a => on_return now c a s
    | Task => match tasks s with (c, h) :: r => run_task now c h (set_tasks r s) | [] => s end
    | Update => update now s
    | Connect rnd sh shn => connect now rnd sh shn s
    | Kick a => kick_peer a s
    | Check id h => set_check (id, h) s
    end.

  (** src/Router.cpp:112-126: the start, with the known peers from the file and the blocked ones from the configuration *)
  Definition start (kn bl : list string) : st := mk_st [] 0 [] [] [] [] kn [] bl [] [] (0, 0) [].
  Definition run (kn bl : list string) (l : list (Z * event)) : st := fold_left step l (start kn bl).
End ROUTER.
