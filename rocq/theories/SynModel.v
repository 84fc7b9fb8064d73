(** * The engine that brings a node up to date (sync)

    Models how a node asks its peers for the blocks at each height, takes the
    answers in whatever order they come, asks again after failures, finds the
    end of the chain, and at last reports that it is synced.

    Simplifications: heights are natural numbers (the code has 32 bits); what
    add_block, find_prev, fork_to and get_fork_line do is left to the
    environment: the answer says which of its blocks have a known previous
    block, and each update is told to which height the best fork makes the node
    go back, how long the fork line is and how high the peak is.  The current
    value of the moving average max_sync_pending (src/Node.cpp:618-621) is given
    by the environment as well. *)
From Coq Require Import List NArith ZArith Bool.
Import ListNotations.
Local Open Scope N_scope.

(** Settings: modules/Node.vni:37-47, interface/ChainParams.vni:12,62. *)
Record conf := Conf {
  c_sync : bool;        (* do_sync *)
  c_jobs : N;           (* max_sync_jobs *)
  c_ahead : N;          (* max_sync_ahead *)
  c_retries : N;        (* num_sync_retries *)
  c_future : Z;         (* max_future_sync *)
  c_delay : N;          (* params->commit_delay *)
  c_interval : Z        (* params->block_interval_ms *)
}.

(** What can be seen of a sync, see [tr] below. *)
Inductive ev :=
| EStart (root : N)     (* a sync starts, the last committed height is root *)
| EReq (h : N)          (* the peers are asked for the blocks at height h *)
| EAns (h n : N)        (* an answer with n blocks that are not from the far future *)
| EFail (h : N)         (* a request failed *)
| ECommit (h : N)       (* a block at height h is committed to disk *)
| ERetry (now : Z)      (* the end of the chain is looked for once more *)
| EDone.                (* the node reports that it is synced *)

(** include/mmx/Node.h:540-565.  [flight] has the requests that were sent and
    not answered yet; [tr] is the record of events, newest first, which is not
    part of the code. *)
Record st := St {
  synced : bool;        (* is_synced *)
  pos : N;              (* sync_pos *)
  start : N;            (* sync_start *)
  retry : N;            (* sync_retry *)
  finish : Z;           (* sync_finish_ms *)
  pend : list N;        (* sync_pending *)
  peak : option N;      (* sync_peak *)
  root : N;             (* height of the last committed block *)
  flight : list N;
  tr : list ev
}.

Definition set_synced s b := St b (pos s) (start s) (retry s) (finish s) (pend s) (peak s) (root s) (flight s) (tr s).
Definition set_pos s p := St (synced s) p (start s) (retry s) (finish s) (pend s) (peak s) (root s) (flight s) (tr s).
Definition set_start s p := St (synced s) (pos s) p (retry s) (finish s) (pend s) (peak s) (root s) (flight s) (tr s).
Definition set_retry s r := St (synced s) (pos s) (start s) r (finish s) (pend s) (peak s) (root s) (flight s) (tr s).
Definition set_finish s f := St (synced s) (pos s) (start s) (retry s) f (pend s) (peak s) (root s) (flight s) (tr s).
Definition set_pend s p := St (synced s) (pos s) (start s) (retry s) (finish s) p (peak s) (root s) (flight s) (tr s).
Definition set_peak s p := St (synced s) (pos s) (start s) (retry s) (finish s) (pend s) p (root s) (flight s) (tr s).
Definition set_root s r := St (synced s) (pos s) (start s) (retry s) (finish s) (pend s) (peak s) r (flight s) (tr s).
Definition set_flight s f := St (synced s) (pos s) (start s) (retry s) (finish s) (pend s) (peak s) (root s) f (tr s).
Definition log s e := St (synced s) (pos s) (start s) (retry s) (finish s) (pend s) (peak s) (root s) (flight s) (e :: tr s).

(** std::set<uint32_t>: count, insert, erase. *)
Definition mem (h : N) (l : list N) : bool := existsb (N.eqb h) l.
Definition insert (h : N) (l : list N) : list N := if mem h l then l else h :: l.
Definition erase (h : N) (l : list N) : list N := filter (fun x => negb (h =? x)) l.

(** One of the outstanding requests for a height comes back. *)
Fixpoint take_one (h : N) (l : list N) : list N :=
  match l with
  | [] => []
  | x :: r => if h =? x then r else x :: take_one h r
  end.

(** src/Node.cpp:570-573: sync_height, the sending of the request. *)
Definition sync_height (s : st) (h : N) : st :=
  log (set_flight (set_pend s (insert h (pend s))) (h :: flight s)) (EReq h).

(** src/Node.cpp:565-567: the loop of sync_more; [fuel] bounds it, see
    [more_loop_stops] in SynProofs. *)
Definition more_cond (s : st) (mp : N) : bool :=
  (N.of_nat (length (pend s)) <? mp) &&
  match peak s with None => true | Some p => pos s <? p end.

Fixpoint more_loop (fuel : nat) (s : st) (mp : N) : st :=
  match fuel with
  | O => s
  | S f => if more_cond s mp
           then more_loop f (sync_height (set_pos s (pos s + 1)) (pos s)) mp
           else s
  end.

(** What an update or an answer finds outside of the engine. *)
Record env := Env {
  e_now : Z;            (* get_time_ms() *)
  e_mp : N;             (* std::min<int>(max_sync_pending, max_sync_jobs) *)
  e_back : N;           (* the root that the best fork needs, when lower than ours *)
  e_line : nat;         (* length of get_fork_line *)
  e_peak : N;           (* peak->height *)
  e_delay : N           (* commit_delay of src/Node_update.cpp:321-323 *)
}.

(** src/Node.cpp:560-562: the limit of blocks in memory. *)
Definition at_limit (c : conf) (s : st) : bool :=
  (root s <? pos s) && (c_delay c + c_ahead c <? pos s - root s).

(** src/Node.cpp:563. *)
Definition max_pending (s : st) (mp : N) : N :=
  if retry s =? 0 then N.max mp 4 else 2.

(** src/Node.cpp:555-559. *)
Definition begin_pos (s : st) : st :=
  if pos s =? 0 then set_start (set_pos s (root s + 1)) (root s + 1) else s.

(** src/Node.cpp:548-568: sync_more. *)
Definition sync_more (c : conf) (s : st) (mp : N) : st :=
  if synced s then s
  else
    let s := begin_pos s in
    if at_limit c s then s
    else
      let m := max_pending s mp in
      more_loop (N.to_nat m + length (pend s)) s m.

(** src/Node.cpp:523-536: start_sync. *)
Definition start_sync (c : conf) (s : st) (force : bool) (mp : N) : st :=
  if (negb (synced s) || negb (c_sync c)) && negb force then s
  else
    let s := set_synced s false in
    let s := set_pos s 0 in
    let s := set_peak s None in
    let s := set_retry s 0 in
    sync_more c (log s (EStart (root s))) mp.

(** src/Node.cpp:538-546: revert_sync; revert(height) leaves the block before
    height as the last committed one. *)
Definition revert_sync (c : conf) (s : st) (h mp : N) : st :=
  let s := if h <=? root s then set_root s (h - 1) else s in
  start_sync c s true mp.

(** src/Node_update.cpp:325-335: the loop that commits, over the heights of the
    fork line. *)
Fixpoint commit_loop (n : nat) (s : st) (top delay : N) : st :=
  match n with
  | O => s
  | S k =>
      let h := root s + 1 in
      if (h + delay <=? top) && negb (mem h (pend s)) && (synced s || (h <? pos s))
      then commit_loop k (log (set_root s h) (ECommit h)) top delay
      else s
  end.

(** src/Node_update.cpp:376-390: the end of the chain is reached. *)
Definition finish_sync (c : conf) (s : st) (now : Z) : st :=
  match synced s, peak s, pend s with
  | false, Some p, [] =>
      if retry s <? c_retries c then
        if (c_interval c / 2 <? now - finish s)%Z then
          log (set_retry (set_finish (set_peak (set_pos s (p - 1)) None) now) (retry s + 1)) (ERetry now)
        else s
      else log (set_synced s true) EDone
  | _, _, _ => s
  end.

(** src/Node_update.cpp:303-395: update, the parts about sync.  fork_to can go
    back behind the last committed block before (src/Node_update.cpp:250-295). *)
Definition update (c : conf) (s : st) (e : env) : st :=
  let s := set_root s (N.min (root s) (e_back e)) in
  let s := if root s <? e_peak e then commit_loop (e_line e) s (e_peak e) (e_delay e) else s in
  let s := finish_sync c s (e_now e) in
  sync_more c s (e_mp e).

(** A block of an answer: its time stamp and whether find_prev finds the block
    before it. *)
Record blk := Blk { b_time : Z; b_conn : bool }.

(** src/Node.cpp:586-597: blocks that are too far in the future are dropped. *)
Definition usable (c : conf) (now : Z) (l : list blk) : list blk :=
  filter (fun b => (b_time b <? now + c_future c * c_interval c)%Z) l.

(** src/Node.cpp:606-612: walk back in case we missed blocks before. *)
Fixpoint walk_back (s : st) (l : list blk) : st :=
  match l with
  | [] => s
  | b :: r =>
      walk_back
        (if negb (b_conn b) && (1 <? start s)
         then sync_height (set_start s (start s - 1)) (start s - 1) else s) r
  end.

(** src/Node.cpp:582-634: sync_result. *)
Definition sync_result (c : conf) (s : st) (h : N) (result : list blk) (e : env) : st :=
  let blocks := usable c (e_now e) result in
  let s := set_pend s (erase h (pend s)) in
  let s := log (set_flight s (take_one h (flight s))) (EAns h (N.of_nat (length blocks))) in
  let s := if h =? start s then walk_back s blocks else s in
  if synced s then s
  else
    let s := match blocks with
             | [] => match peak s with
                     | Some p => if h <? p then set_peak s (Some h) else s
                     | None => set_peak s (Some h)
                     end
             | _ => s
             end in
    if ((h mod c_jobs c =? 0) || match pend s with [] => true | _ => false end) && (retry s =? 0)
    then update c s e
    else sync_more c s (e_mp e).

(** src/Node.cpp:575-579: the request failed. *)
Definition sync_failed (s : st) (h : N) : st :=
  let s := log (set_flight s (take_one h (flight s))) (EFail h) in
  set_pend (set_pos s (N.min (pos s) h)) (erase h (pend s)).

(** What can happen to a node.  Answers come for outstanding requests only. *)
Inductive op :=
| OAnswer (h : N) (l : list blk) (e : env)
| OFailure (h : N)
| OUpdate (e : env)                      (* the timer, or anything else that makes the node update *)
| OStart (force : bool) (mp : N)         (* by command, or on_stuck_timeout (src/Node.cpp:515-521) *)
| ORevert (h mp : N).

Definition step (c : conf) (s : st) (o : op) : st :=
  match o with
  | OAnswer h l e => if mem h (flight s) then sync_result c s h l e else s
  | OFailure h => if mem h (flight s) then sync_failed s h else s
  | OUpdate e => update c s e
  | OStart force mp => start_sync c s force mp
  | ORevert h mp => revert_sync c s h mp
  end.

(** src/Node.cpp:265-270: main() starts the sync, or claims to be synced when
    sync is switched off. *)
Definition boot (c : conf) (height mp : N) : st :=
  let s := St false 0 0 0 0 [] None height [] [] in
  if c_sync c then start_sync c s true mp else set_synced s true.

Definition run (c : conf) (height mp : N) (l : list op) : st :=
  fold_left (step c) l (boot c height mp).
