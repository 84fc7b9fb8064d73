(** The timelord: /repo/src/TimeLord.cpp.
    Hashes and addresses are numbers as in VdfModel; std::map is a list of pairs with growing keys; numbers of iterations do not wrap around.
    hash, timelord_sig and content_hash of a proof (TimeLord.cpp:257-259) are left at zero. *)
Require Import List Arith NArith Bool.
Import ListNotations.
From Verif Require Import VdfModel.
Open Scope N_scope.

(** interface/IntervalRequest.vni *)
Record request := mk_request { r_height : N; r_start : N; r_end : N; r_infuse : N; r_input : option N }.

(** std::map<uint64_t, V> *)
Definition map_ (V : Type) := list (N * V).
Fixpoint get {V} (k : N) (m : map_ V) : option V :=
  match m with [] => None | (a, v) :: m => if a =? k then Some v else get k m end.
Fixpoint put {V} (k : N) (v : V) (m : map_ V) : map_ V :=
  match m with
  | [] => [(k, v)]
  | (a, w) :: r => if a =? k then (k, v) :: r else if k <? a then (k, v) :: m else (a, w) :: put k v r
  end.
(** erase(upper_bound(a), lower_bound(b)) for a < b *)
Definition erase_between {V} (a b : N) (m : map_ V) : map_ V := filter (fun e => negb ((a <? fst e) && (fst e <? b))) m.
(** while(size() > n) erase(begin()) *)
Definition trim {V} (n : nat) (m : map_ V) : map_ V := skipn (length m - n) m.

(** TimeLord.h:42-71; [t_point]: the local variable of vdf_loop (TimeLord.cpp:268); [t_tasks]: calls of update waiting in the queue of the module *)
Record state := mk_state {
  t_run : bool; t_reset : bool; t_history : map_ N; t_infuse : map_ N; t_peak_iters : N; t_pending : map_ request;
  t_peak : option (N * N); t_point : N * N; t_tasks : nat }.   (** points: (output, num_iters) *)
Definition init : state := mk_state false false [] [] 0 [] None (0, 0) 0.

Section TIMELORD.
  Variable H : N -> N.
  Variable H2 : N -> N -> N.
  Variables (segment_iters : N) (max_history : nat) (reward : N).

  (** TimeLord.cpp:318-335 *)
  Definition compute (x n : N) : N := iterate H n x.
  (** TimeLord.cpp:293-297 *)
  Definition with_infusion (x : N) (i : option N) : N := match i with Some v => H2 (H2 x v) reward | None => x end.

  (** TimeLord.cpp:124-208 *)
  Definition handle (r : request) (s : state) : state :=
    let start := r_start r in
    let infuse := erase_between start (r_end r) (t_infuse s) in
    let pending := erase_between start (r_end r) (t_pending s) in
    let passed := match t_peak s with Some (_, n) => start <=? n | None => false end in
    let is_fork := match get start infuse with
                   | Some v => passed && negb (r_infuse r =? v)
                   | None => passed
                   end in
    let infuse := put start (r_infuse r) infuse in
    let '(history, peak, reset) :=
      if is_fork then
        match get start (t_history s) with
        | Some x => (t_history s, Some (x, start), true)
        | None => (put start 0 (t_history s), Some (0, start), true)      (** history[start] *)
        end
      else (t_history s, t_peak s, t_reset s) in
    let '(running, peak, reset) :=
      match r_input r with
      | None => (t_run s, peak, reset)
      | Some x =>
        if t_run s then
          match peak with
          | None => (true, Some (x, start), true)
          | Some (px, pn) =>
            let differs := match get start history with Some y => negb (y =? x) | None => true end in
            let is_fork := differs && (negb reset || (pn <? start)) in
            if is_fork || (pn <? start) then (true, Some (x, start), true) else (true, peak, reset)
          end
        else (true, Some (x, start), true)                                 (** start_vdf, TimeLord.cpp:102-111 *)
      end in
    let peak_iters := if reset then 0 else t_peak_iters s in
    let pending := if peak_iters <? r_end r then put (r_end r) r pending else pending in
    let tasks := match peak with Some (_, n) => if r_end r <=? n then S (t_tasks s) else t_tasks s | None => t_tasks s end in
    mk_state running reset history infuse peak_iters pending peak (t_point s) tasks.

  (** TimeLord.cpp:113-122 *)
  Definition stop_vdf (s : state) : state :=
    mk_state false (t_reset s) [] [] 0 (t_pending s) None (t_point s) (t_tasks s).
  (** TimeLord.cpp:83-85 *)
  Definition timer (s : state) : state :=
    mk_state (t_run s) (t_reset s) (t_history s) (t_infuse s) 0 (t_pending s) (t_peak s) (t_point s) (t_tasks s).

  (** TimeLord.cpp:229-243 *)
  Definition make_proof (r : request) (input : N) (history : map_ N) : proof :=
    mk_proof 0 0 (r_height r) (r_start r) (r_end r - r_start r) segment_iters input (r_infuse r) reward
      (map snd (filter (fun e => (r_start r <? fst e) && (fst e <=? r_end r)) history)) 0 0 0.
  (** TimeLord.cpp:221-247: what is left of pending, peak_iters, and the proofs *)
  Fixpoint serve (history : map_ N) (pending : map_ request) (peak_iters : N) (out : list proof) : map_ request * N * list proof :=
    match pending with
    | [] => ([], peak_iters, out)
    | (e, r) :: rest =>
      match get (r_end r) history with
      | None => (pending, peak_iters, out)
      | Some _ =>
        match get (r_start r) history with
        | Some x => serve history rest (r_end r) (out ++ [make_proof r x history])
        | None => serve history rest peak_iters out
        end
      end
    end.
  (** TimeLord.cpp:210-264 *)
  Definition update (s : state) : state * list proof :=
    let pending := match t_history s with
                   | [] => t_pending s
                   | (b, _) :: _ => filter (fun e => negb (fst e <? b)) (t_pending s)
                   end in
    let '(pending, peak_iters, out) := serve (t_history s) pending (t_peak_iters s) [] in
    (mk_state (t_run s) (t_reset s) (trim max_history (t_history s)) (trim 1000 (t_infuse s)) peak_iters pending (t_peak s) (t_point s) (t_tasks s - 1), out).

  (** TimeLord.cpp:266-316: one round of the thread; the computation works on the local variable only *)
  Definition loop (s : state) : state :=
    if negb (t_run s) then s
    else
      let point := if t_reset s then match t_peak s with Some p => p | None => t_point s end else t_point s in
      let history := put (snd point) (fst point) (if t_reset s then [] else t_history s) in
      let tasks := match get (snd point) (t_pending s) with Some _ => S (t_tasks s) | None => t_tasks s end in
      let infused := with_infusion (fst point) (get (snd point) (t_infuse s)) in
      mk_state true false history (t_infuse s) (t_peak_iters s) (t_pending s) (Some point) (compute infused segment_iters, snd point + segment_iters) tasks.

  (** what can happen: a request or a call of stop_vdf arrives, a queued update runs, the timer fires, the thread makes a round *)
  Inductive event := Req (r : request) | Stop | Update | Timer | Loop.
  Definition step (s : state) (e : event) : state * list proof :=
    match e with
    | Req r => (handle r s, [])
    | Stop => (stop_vdf s, [])
    | Update => if (t_tasks s =? 0)%nat then (s, []) else update s
    | Timer => (timer s, [])
    | Loop => (loop s, [])
    end.
  Fixpoint run (s : state) (l : list event) : state * list proof :=
    match l with
    | [] => (s, [])
    | e :: l => let '(s, out) := step s e in let '(s, rest) := run s l in (s, out ++ rest)
    end.
End TIMELORD.
