(** Getting blocks from other nodes: /repo/src/Router.cpp.
    Connections (clients), hashes and times are numbers; sets are lists without repetition, maps lists of pairs with distinct keys.
    One job is modelled; other jobs and requests only use up numbers (next_request_id), which do not wrap around here. *)
Require Import List Arith NArith Bool.
Import ListNotations.
Open Scope N_scope.

(** Block: what matters here; [k_ok]: is_valid(params) *)
Record block := mk_block { k_hash : N; k_content : N; k_height : N; k_ok : bool }.

Definition mem (x : N) (l : list N) : bool := existsb (N.eqb x) l.
Definition add (x : N) (l : list N) : list N := if mem x l then l else x :: l.
Definition del (x : N) (l : list N) : list N := filter (fun y => negb (y =? x)) l.
Definition get {A} (x : N) (m : list (N * A)) : option A := option_map snd (find (fun e => fst e =? x) m).
Definition erase {A} (x : N) (m : list (N * A)) : list (N * A) := filter (fun e => negb (fst e =? x)) m.
Definition put {A} (x : N) (v : A) (m : list (N * A)) : list (N * A) := (x, v) :: erase x m.

(** Router.h: sync_job_t; height, num_fetch and the times of start and last reply are left out *)
Record job := mk_job {
  j_failed : list N; j_pending : list N; j_succ : list N;
  j_got : list (N * (N * N));          (** client: block hash, content hash *)
  j_req : list (N * N);                (** request id: client *)
  j_wait : list (N * N);               (** pending_blocks: content hash: time *)
  j_blocks : list (N * block) }.       (** content hash: block *)
Definition job0 : job := mk_job [] [] [] [] [] [] [].

(** what a peer may send back: the results of Node_get_block_hash_ex and Node_get_block, an exception, anything else *)
Inductive reply := RHash (h : option (N * N)) | RBlock (b : option block) | RError | ROther.
(** what is sent to a client *)
Inductive ask := AskHash | AskBlock (hash : N).

Section FETCH.
  Variables (min_sync_peers : nat) (fetch_timeout : N).

  (** Router.cpp:527-570 *)
  Definition take (client : N) (r : reply) (j : job) : job :=
    match r with
    | RHash (Some h) =>
      mk_job (j_failed j) (j_pending j) (if match get (snd h) (j_blocks j) with Some _ => true | None => false end then add client (j_succ j) else j_succ j)
             (put client h (j_got j)) (j_req j) (j_wait j) (j_blocks j)
    | RHash None => mk_job (add client (j_failed j)) (j_pending j) (j_succ j) (j_got j) (j_req j) (j_wait j) (j_blocks j)
    | RBlock ob =>
      let j := match ob with
               | Some b =>
                 if k_ok b
                 then mk_job (j_failed j) (j_pending j)
                        (add client (fold_left (fun s e => if snd (snd e) =? k_content b then add (fst e) s else s) (j_got j) (j_succ j)))
                        (j_got j) (j_req j) (erase (k_content b) (j_wait j)) (put (k_content b) b (j_blocks j))
                 else mk_job (j_failed j) (j_pending j) (j_succ j) (j_got j) (j_req j) (erase (k_content b) (j_wait j)) (j_blocks j)
               | None => j
               end in
      if mem client (j_succ j) then j
      else mk_job (add client (j_failed j)) (j_pending j) (j_succ j) (j_got j) (j_req j) (j_wait j) (j_blocks j)
    | RError =>
      match get client (j_got j) with
      | Some h => mk_job (j_failed j) (j_pending j) (j_succ j) (j_got j) (j_req j) (erase (snd h) (j_wait j)) (j_blocks j)
      | None => j
      end
    | ROther => j
    end.
  (** Router.cpp:571-573 *)
  Definition close (id client : N) (j : job) : job :=
    mk_job (j_failed j) (del client (j_pending j)) (j_succ j) (j_got j) (erase id (j_req j)) (j_wait j) (j_blocks j).
  (** Router.cpp:580-592: clients that are no longer synced *)
  Definition drop_client (client : N) (j : job) : job :=
    mk_job (j_failed j) (del client (j_pending j)) (j_succ j) (erase client (j_got j)) (j_req j)
           (match get client (j_got j) with Some h => erase (snd h) (j_wait j) | None => j_wait j end) (j_blocks j).
  Definition drop_lost (synced : list N) (j : job) : job :=
    fold_left (fun j c => if mem c synced then j else drop_client c j) (j_pending j) j.
  (** Router.cpp:407-423 and 608-612, 633-639 *)
  Definition request (client id : N) (j : job) : job :=
    mk_job (j_failed j) (add client (j_pending j)) (j_succ j) (j_got j) (put id client (j_req j)) (j_wait j) (j_blocks j).
  Definition set_wait (h t : N) (j : job) : job :=
    mk_job (j_failed j) (j_pending j) (j_succ j) (j_got j) (j_req j) (put h t (j_wait j)) (j_blocks j).

  (** the job, the next number and what was sent: to which client, with which id *)
  Definition acc := (job * N * list (N * N * ask))%type.
  Definition free (j : job) (c : N) : bool := negb (mem c (j_failed j)) && negb (mem c (j_pending j)) && negb (mem c (j_succ j)).
  Definition ask_hash1 (a : acc) (c : N) : acc :=
    let '(j, next, out) := a in (request c next j, next + 1, out ++ [(c, next, AskHash)]).
  (** Router.cpp:593-614; [pick]: get_subset with the random numbers it uses *)
  Definition ask_hashes (pick : list N -> nat -> list N) (synced : list N) (j : job) (next : N) : acc :=
    let max_pending := (min_sync_peers + 3)%nat in
    let num_pending := (length (j_pending j) + length (j_got j))%nat in
    if (num_pending <? max_pending)%nat then
      let clients := filter (fun c => free j c && match get c (j_got j) with Some _ => false | None => true end) synced in
      fold_left ask_hash1 (pick clients (max_pending - num_pending)%nat) (j, next, [])
    else (j, next, []).
  Definition ask_block1 (now : N) (a : acc) (e : N * (N * N)) : acc :=
    let '(j, next, out) := a in
    if match get (snd (snd e)) (j_wait j) with Some t => t <? now | None => true end
    then (set_wait (snd (snd e)) (now + fetch_timeout / 8) (request (fst e) next j), next + 1, out ++ [(fst e, next, AskBlock (fst (snd e)))])
    else a.
  (** Router.cpp:615-641; the clients are taken in the order of the map here (the set is sorted in the code) *)
  Definition ask_blocks (now : N) (a : acc) : acc :=
    let '(j, _, _) := a in
    let clients := filter (fun e => match get (snd (snd e)) (j_blocks j) with Some _ => false | None => true end && free j (fst e)) (j_got j) in
    fold_left (ask_block1 now) clients a.

  (** the job under way, or what get_blocks_at returned *)
  Inductive state := Busy (j : job) (next : N) (synced : list N) | Finished (blocks : list block).
  (** Router.cpp:579-661: after a reply was taken, or at an update *)
  Definition go_on (now : N) (pick : list N -> nat -> list N) (j : job) (next : N) (synced : list N) : state * list (N * N * ask) :=
    let j := drop_lost synced j in
    if (length (j_failed j) + length (j_succ j) <? min_sync_peers)%nat then
      let '(j, next, out) := ask_blocks now (ask_hashes pick synced j next) in (Busy j next synced, out)
    else (Finished (map snd (j_blocks j)), []).

  (** what happens: a message with a reply to request [id] arrives on connection [from] (on_return, Router.cpp:1431-1435, which does not look at the connection);
      update() runs (Router.cpp:476-496, [timeout]: nothing was received for too long); a full node says that it is synced, or not or is gone (1497-1530, 1691);
      other requests are sent *)
  Inductive event := EvReply (from id : N) (r : reply) (now : N) (pick : list N -> nat -> list N) | EvUpdate (timeout : bool) (now : N) (pick : list N -> nat -> list N)
                   | EvSynced (c : N) | EvLost (c : N) | EvOther (n : N).
  Definition step (s : state) (e : event) : state * list (N * N * ask) :=
    match s with
    | Finished _ => (s, [])
    | Busy j next synced =>
      match e with
      | EvReply from id r now pick =>
        match get id (j_req j) with
        | Some client => go_on now pick (close id client (take client r j)) next synced
        | None => (s, [])
        end
      | EvUpdate timeout now pick =>
        if timeout && (min_sync_peers <=? length synced)%nat
        then go_on now pick job0 next (fold_left (fun l c => del c l) (j_pending j) synced)
        else go_on now pick j next synced
      | EvSynced c => (Busy j next (add c synced), [])
      | EvLost c => (Busy j next (del c synced), [])
      | EvOther n => (Busy j (next + n) synced, [])
      end
    end.
  (** get_blocks_at_async, Router.cpp:271-278 *)
  Definition start (now : N) (pick : list N -> nat -> list N) (next : N) (synced : list N) : state * list (N * N * ask) := go_on now pick job0 next synced.
  (** what can be seen of a run: what happened and the requests that were sent *)
  Inductive obs := In (e : event) | Out (client id : N) (q : ask).
  Definition outs (l : list (N * N * ask)) : list obs := map (fun x => Out (fst (fst x)) (snd (fst x)) (snd x)) l.
  Definition step_obs (x : state * list obs) (e : event) : state * list obs :=
    let '(s, tr) := x in let '(s', out) := step s e in (s', tr ++ In e :: outs out).
  Definition run (now : N) (pick : list N -> nat -> list N) (next : N) (synced : list N) (l : list event) : state * list obs :=
    let '(s, out) := start now pick next synced in fold_left step_obs l (s, outs out).
End FETCH.

(** ** fetch_block (Router.cpp:280-289 and 671-769): the job for a hash, from any peer *)
Record fjob := mk_fjob { f_hash : N; f_failed : list N; f_pending : list N; f_req : list (N * N) }.
Inductive fstate := FBusy (j : fjob) (next : N) (synced : list N) | FDone (b : option block) | FTimeout.
Section FETCH1.
  Variable min_sync_peers : nat.
  Definition facc := (fjob * N * list (N * N * ask))%type.
  (** Router.cpp:755-761 *)
  Definition f_ask (a : facc) (c : N) : facc :=
    let '(j, next, out) := a in
    (mk_fjob (f_hash j) (f_failed j) (add c (f_pending j)) (put next c (f_req j)), next + 1, out ++ [(c, next, AskBlock (f_hash j))]).
  (** Router.cpp:714-721 and 740-763 *)
  Definition f_go_on (pick : list N -> nat -> list N) (j : fjob) (next : N) (synced : list N) : fstate * list (N * N * ask) :=
    let j := mk_fjob (f_hash j) (f_failed j) (filter (fun c => mem c synced) (f_pending j)) (f_req j) in
    let clients := filter (fun c => negb (mem c (f_failed j)) && negb (mem c (f_pending j))) synced in
    match clients, f_pending j with
    | [], [] => (FDone None, [])
    | _, _ =>
      if (length (f_pending j) <? min_sync_peers)%nat then
        let '(j, next, out) := fold_left f_ask (pick clients (min_sync_peers - length (f_pending j))%nat) (j, next, []) in
        (FBusy j next synced, out)
      else (FBusy j next synced, [])
    end.
  (** Router.cpp:675-712 (no particular peer was named) *)
  Definition f_step (s : fstate) (e : event) : fstate * list (N * N * ask) :=
    match s with
    | FBusy j next synced =>
      match e with
      | EvReply from id r now pick =>
        match get id (f_req j) with
        | Some client =>
          match r with
          | RBlock (Some b) => (FDone (Some b), [])
          | _ => f_go_on pick (mk_fjob (f_hash j) (add client (f_failed j)) (del client (f_pending j)) (erase id (f_req j))) next synced
          end
        | None => (s, [])
        end
      | EvUpdate true now pick => (FTimeout, [])                                 (** 498-507 *)
      | EvUpdate false now pick => f_go_on pick j next synced
      | EvSynced c => (FBusy j next (add c synced), [])
      | EvLost c => (FBusy j next (del c synced), [])
      | EvOther n => (FBusy j (next + n) synced, [])
      end
    | _ => (s, [])
    end.
  Definition f_obs (x : fstate * list obs) (e : event) : fstate * list obs :=
    let '(s, tr) := x in let '(s', out) := f_step s e in (s', tr ++ In e :: outs out).
  (** fetch_block_async, Router.cpp:280-289 *)
  Definition f_run (hash : N) (pick : list N -> nat -> list N) (next : N) (synced : list N) (l : list event) : fstate * list obs :=
    let '(s, out) := f_go_on pick (mk_fjob hash [] [] []) next synced in fold_left f_obs l (s, outs out).
End FETCH1.
