(** Validation of transactions on several threads: /repo/src/Node_validate.cpp:28-105, 325-345, src/Node.cpp:1728-1765 and
    src/Node_update.cpp:692-741, 785-835.  vnx::ThreadPool, which is not part of the repository, starts tasks in the order in which they were
    added, each on one of its threads. *)
Require Import List Arith NArith ZArith Bool.
From Verif Require Import BytesLib OrdLib VarModel InstrModel EngineModel ExecModel StorModel TxModel BlockModel.
Import ListNotations.
Open Scope N_scope.

(** ** Which contracts a transaction locks *)
Definition mem (a : addr) (l : list addr) : bool := existsb (addr_eqb a) l.
(** std::set<addr_t>; the order of the elements is not modelled *)
Fixpoint set_of (l : list addr) : list addr := match l with [] => [] | a :: l => if mem a l then set_of l else a :: set_of l end.
(** src/Node.cpp:1747-1765; [dep]: contract_depends; [fuel]: the height of the graph of dependencies, in which a contract comes after those
    it depends on.  [None]: an exception. *)
Fixpoint all_depends (dep : addr -> list addr) (max_depth max_width : N) (fuel : nat) (a : addr) (depth : N) : option (list addr) :=
  match fuel with
  | O => None
  | S f =>
    match fold_right (fun b acc => match all_depends dep max_depth max_width f b (depth + 1), acc with Some l, Some l' => Some (l ++ l') | _, _ => None end)
                     (Some []) (dep a) with
    | None => None
    | Some l =>
      let out := set_of (l ++ dep a) in
      if negb (N.of_nat (length out) =? 0) && (max_depth <? depth) then None
      else if max_width <? N.of_nat (length out) then None
      else Some out
    end
  end.
(** src/Node.cpp:1728-1745 *)
Definition exec_depends (dep : addr -> list addr) (max_depth max_width : N) (fuel : nat) (ex : addr * list (bytes * addr)) : option (list addr) :=
  let own := set_of (map snd (snd ex)) in
  if max_width <? N.of_nat (length own) then None
  else
    match fold_right (fun b acc => match all_depends dep max_depth max_width fuel b 2, acc with Some l, Some l' => Some (l ++ l') | _, _ => None end)
                     (Some []) own with
    | None => None
    | Some l => let out := set_of (own ++ l) in if max_width <? N.of_nat (length out) then None else Some out
    end.

(** params->max_rcall_depth, max_rcall_width, contract_depends and the height of its graph *)
Record deps := mk_deps { g_dep : addr -> list addr; g_depth : N; g_width : N; g_fuel : nat }.
Definition op_target (t : tx) (o : op) : addr := if addr_eqb (op_address o) zero_addr then t_id t else op_address o.
(** src/Node_validate.cpp:78-98; [None]: an exception, before anything is locked *)
Definition mutate_set (G : deps) (t : tx) : option (list addr) :=
  let own := set_of (match t_deploy t with Some _ => [t_id t] | None => [] end ++ map (op_target t) (t_ops t)) in
  let more (a : addr) :=
    if addr_eqb a (t_id t)
    then match t_deploy t with
         | Some d => match k_exec (dp_contract d) with Some ex => exec_depends (g_dep G) (g_depth G) (g_width G) (g_fuel G) ex | None => Some [] end
         | None => Some []
         end
    else all_depends (g_dep G) (g_depth G) (g_width G) (g_fuel G) a 1 in
  match fold_right (fun a acc => match more a, acc with Some l, Some l' => Some (l ++ l') | _, _ => None end) (Some []) own with
  | None => None
  | Some l => Some (set_of (own ++ l))
  end.

(** execution_context_t, include/mmx/Node.h:245-257: the ids that have locked a contract, the last one first; the pairs (id, id it waits for);
    the ids that have a condition *)
Record context := mk_context { c_mutate : addr -> list addr; c_wait : list (addr * addr); c_signal : list addr }.
Definition context_empty : context := mk_context (fun _ => []) [] [].
(** src/Node_validate.cpp:60-66 and 100 *)
Definition lock (id : addr) (C : context) (a : addr) : context :=
  mk_context (fun b => if addr_eqb b a then id :: c_mutate C b else c_mutate C b)
             (match c_mutate C a with p :: _ => (id, p) :: c_wait C | [] => c_wait C end) (c_signal C).
(** src/Node_validate.cpp:97-105 *)
Definition add_locks (C : context) (id : addr) (l : list addr) : context :=
  let C := fold_left (lock id) l C in
  mk_context (c_mutate C) (c_wait C) (match l with [] => c_signal C | _ => id :: c_signal C end).
(** for each of the transactions, e.g. src/Node_validate.cpp:244-246 *)
Fixpoint prepare_all (G : deps) (C : context) (l : list tx) : option context :=
  match l with
  | [] => Some C
  | t :: l => match mutate_set G t with Some s => prepare_all G (add_locks C (t_id t) s) l | None => None end
  end.
(** src/Node_validate.cpp:475-484 *)
Definition with_locks (C : context) (n : node) : node :=
  mk_node (n_max_cost n) (n_in_cost n) (n_out_cost n) (n_exists n) (n_ext n) (n_contract n) (n_binary n) (n_read_cost n) (n_fee_exec n)
          (n_hf2 n) (n_network n) (n_height n) (fun t a => mem (t_id t) (c_mutate C a)).

(** ** The tasks *)
(** the writes of [StorageCache::commit] (src/vm/StorageCache.cpp:47-64), in their order *)
Definition commit_ops (r : ram) : list sop :=
  map (fun e => OWrite (fst (fst e)) (snd (fst e)) (snd e)) (items mem_cmp (r_mem r))
  ++ map (fun e => OEntry (fst (fst e)) (fst (snd (fst e))) (snd (snd (fst e))) (snd e)) (items ent_cmp (r_ent r))
  ++ map (fun e => OBalance (fst (fst e)) (snd (fst e)) (snd e)) (items bal_cmp (r_bal r)).
Definition writes (o : outcome) : list sop := match o with VDone _ (Some w) => commit_ops (w_ram w) | _ => [] end.
(** Where a task is.  [Queued]: not started.  [Picked]: started.  [Waiting]: in [context->wait].  [Running k]: in [validate]; the shared storage had
    been written to [k] times when it began.  [Writing]: the rest of the commit is to do.  [Finished]: has signalled, [ok]: no write failed.
    [Skipped]: returned because the deadline was over. *)
Inductive phase := Queued | Picked | Waiting | Running (k : nat) | Writing (rest : list sop) (o : outcome) | Finished (o : outcome) (ok : bool) | Skipped.
Definition active (p : phase) : bool := match p with Picked | Waiting | Running _ | Writing _ _ => true | _ => false end.
(** [p_hist]: the contents of the shared storage (the cache of the block in front of the database) so far, the last first.
    [p_signal]: the ids for which [do_wait] is false.  [p_late]: the deadline is over. *)
Record pstate := mk_pstate { p_phase : nat -> phase; p_hist : list storage; p_signal : list addr; p_late : bool }.
Definition set_phase (i : nat) (p : phase) (f : nat -> phase) : nat -> phase := fun j => if Nat.eqb j i then p else f j.

(** A storage that others write to while it is read: every answer is one it had at some time.  (What is asked for twice gets the same answer
    twice.  The proofs show that answers do not change while they can be asked for.) *)
Record answers (seen : list storage) (bk : backend) : Prop := mk_answers {
  an_read : forall c a, exists s, In s seen /\ bk_read bk c a = s_read s c a;
  an_entry : forall c a k, exists s, In s seen /\ bk_entry bk c a k = s_entry s c a k;
  an_lookup : forall c v, exists s, In s seen /\ bk_lookup bk c v = s_lookup s c v;
  an_balance : forall c cur, exists s, In s seen /\ bk_balance bk c cur = fst (s_get_balance s c cur) }.

Section TASKS.
  Variable n : node.             (** with the locks of the context *)
  Variable C : context.
  Variable bal : balances.       (** balance_table *)
  Variable txs : list tx.
  Variable threads : nat.
  Variable deadline : bool.      (** there is one: validate_new and validate_for_block, not the validation of a block *)

  Definition count_active (f : nat -> phase) : nat := length (filter (fun i => active (f i)) (seq 0 (length txs))).
  (** src/Node_validate.cpp:28-45: nothing that is waited for is missing *)
  Definition may_run (id : addr) (signal : list addr) : Prop := forall p, In (id, p) (c_wait C) -> In p (c_signal C) -> In p signal.

  Inductive step : pstate -> pstate -> Prop :=
  | step_pick i s : (i < length txs)%nat -> p_phase s i = Queued -> (forall j, (j < i)%nat -> p_phase s j <> Queued) ->
      (count_active (p_phase s) < threads)%nat ->
      step s (mk_pstate (set_phase i Picked (p_phase s)) (p_hist s) (p_signal s) (p_late s))
  | step_late s : deadline = true -> step s (mk_pstate (p_phase s) (p_hist s) (p_signal s) true)
    (** src/Node_update.cpp:712-715, 801-804 *)
  | step_skip i s : p_phase s i = Picked -> deadline && p_late s = true ->
      step s (mk_pstate (set_phase i Skipped (p_phase s)) (p_hist s) (p_signal s) (p_late s))
  | step_begin i s : p_phase s i = Picked -> deadline && p_late s = false ->
      step s (mk_pstate (set_phase i Waiting (p_phase s)) (p_hist s) (p_signal s) (p_late s))
  | step_run i t s : p_phase s i = Waiting -> nth_error txs i = Some t -> may_run (t_id t) (p_signal s) ->
      step s (mk_pstate (set_phase i (Running (length (p_hist s))) (p_phase s)) (p_hist s) (p_signal s) (p_late s))
    (** an exception of [validate] is caught: Node_validate.cpp:337-341 *)
  | step_validate i t k bk s : p_phase s i = Running k -> nth_error txs i = Some t ->
      answers (firstn (S (length (p_hist s) - k)) (p_hist s)) bk ->
      step s (mk_pstate (set_phase i (let o := validate n bk t bal in Writing (writes o) o) (p_phase s)) (p_hist s) (p_signal s) (p_late s))
  | step_write i w ws o st st' l s : p_phase s i = Writing (w :: ws) o -> p_hist s = st :: l -> s_do w st = Some st' ->
      step s (mk_pstate (set_phase i (Writing ws o) (p_phase s)) (st' :: st :: l) (p_signal s) (p_late s))
    (** an exception of [commit] *)
  | step_throw i t w ws o st l s : p_phase s i = Writing (w :: ws) o -> nth_error txs i = Some t -> p_hist s = st :: l -> s_do w st = None ->
      step s (mk_pstate (set_phase i (Finished o false) (p_phase s)) (p_hist s)
                        (if mem (t_id t) (c_signal C) then t_id t :: p_signal s else p_signal s) (p_late s))
    (** src/Node_validate.cpp:47-58, 342 *)
  | step_signal i t o s : p_phase s i = Writing [] o -> nth_error txs i = Some t ->
      step s (mk_pstate (set_phase i (Finished o true) (p_phase s)) (p_hist s)
                        (if mem (t_id t) (c_signal C) then t_id t :: p_signal s else p_signal s) (p_late s)).
  Definition start (st : storage) : pstate := mk_pstate (fun _ => Queued) [st] [] false.
  Inductive steps (s0 : pstate) : nat -> pstate -> Prop :=
  | steps_0 : steps s0 O s0
  | steps_S k s s' : steps s0 k s -> step s s' -> steps s0 (S k) s'.
  (** threads->sync() returns: no task is queued or active *)
  Definition all_done (s : pstate) : Prop := forall i, (i < length txs)%nat -> p_phase s i <> Queued /\ active (p_phase s i) = false.
End TASKS.
