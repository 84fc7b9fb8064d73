(** The fork tree of the node, votes and the choice of the peak: /repo/src/Node.cpp and /repo/src/Node_update.cpp.
    Not modelled: times (a vote that is too old is dropped: [late] below), logging, sync state, VDF points, the difficulty and the proofs of space.  What the node
    finds out about a block by looking at the block and at its ancestors is a parameter: [ok] (validate), [check] (the proofs).  *)
Require Import List Arith NArith Bool.
From Verif Require Import OrdLib BytesLib EngineModel.
Import ListNotations.
Open Scope N_scope.

(** the fields of BlockHeader that matter here; [h_farmer]: the key of the first proof *)
Record header := mk_header { h_hash : bytes; h_prev : bytes; h_height : N; h_weight : N; h_farmer : option bytes }.
(** include/mmx/Node.h:258-275.  [f_prev]: the weak pointer, as the hash of the fork it points to; a fork that is not in the tree any more is lost for it. *)
Record fork := mk_fork {
  f_block : header; f_prev : option bytes;
  f_invalid : bool; f_validated : bool; f_connected : bool; f_proof : bool; f_all : bool;
  f_votes : N; f_total : N; f_root : option header; f_validators : list (bytes * bool) }.
Definition f_hash (f : fork) : bytes := h_hash (f_block f).
Definition f_height (f : fork) : N := h_height (f_block f).
(** ValidatorVote *)
Record vote := mk_vote { v_hash : bytes; v_key : bytes; v_sig : bytes }.
(** [n_forks]: fork_tree and fork_index, in the order of fork_index.  [n_main]: the blocks that are applied, the last first; height_map.  [n_stored]: the blocks on
    disk and in history.  [n_queue]: vote_queue.  [n_published]: what went to output_verified_votes, the last first. *)
Record node := mk_node { n_root : header; n_forks : list fork; n_main : list header; n_stored : list header; n_queue : list vote; n_published : list vote }.

Definition find_fork (fs : list fork) (h : bytes) : option fork := find (fun f => addr_eqb (f_hash f) h) fs.   (** Node.cpp:1441-1448 *)
Definition find_header (l : list header) (h : bytes) : option header := find (fun b => addr_eqb (h_hash b) h) l.
(** Node_api.cpp:175-196 *)
Definition get_header (n : node) (h : bytes) : option header :=
  match find_fork (n_forks n) h with Some f => Some (f_block f) | None => find_header (n_stored n) h end.
Definition lock (fs : list fork) (p : option bytes) : option fork := match p with Some h => find_fork fs h | None => None end.
Definition modify (h : bytes) (g : fork -> fork) (fs : list fork) : list fork := map (fun f => if addr_eqb (f_hash f) h then g f else f) fs.
Definition state_hash (n : node) : bytes := match n_main n with b :: _ => h_hash b | [] => repeat 0 32%nat end.
Definition set_forks (n : node) (fs : list fork) : node := mk_node (n_root n) fs (n_main n) (n_stored n) (n_queue n) (n_published n).

(** std::multimap::emplace: behind the entries with the same key *)
Fixpoint insert_fork (f : fork) (fs : list fork) : list fork :=
  match fs with [] => [f] | g :: l => if f_height f <? f_height g then f :: fs else g :: insert_fork f l end.
(** Node.cpp:366-410, a block that passed [is_valid] and [validate]; 381-384: a block that is too old goes to disk *)
Definition add_block (b : header) (n : node) : node :=
  if h_height b <=? h_height (n_root n) then mk_node (n_root n) (n_forks n) (n_main n) (b :: n_stored n) (n_queue n) (n_published n)
  else match find_fork (n_forks n) (h_hash b) with
       | Some _ => n
       | None =>
         let p := match find_fork (n_forks n) (h_prev b) with Some _ => Some (h_prev b) | None => None end in
         set_forks n (insert_fork (mk_fork b p false false false false false 0 0 None []) (n_forks n))
       end.

(** Node.cpp:1458-1465, not clamped *)
Fixpoint find_prev (n : node) (b : option header) (distance : nat) : option header :=
  match distance with
  | O => b
  | S d => match b with Some x => find_prev n (get_header n (h_prev x)) d | None => None end
  end.
Definition member (k : bytes) (l : list bytes) : bool := existsb (addr_eqb k) l.
Definition insert_key (k : bytes) (l : list bytes) : list bytes := if member k l then l else k :: l.
Section PARAMS.
  Variables (commit_delay max_history : nat) (max_validators : N).
  (** Node.cpp:1718-1724 *)
  Fixpoint collect (n : node) (rounds : nat) (b : option header) (set : list bytes) : list bytes :=
    match rounds, b with
    | S k, Some x =>
      if N.of_nat (length set) <? max_validators
      then collect n k (get_header n (h_prev x)) (match h_farmer x with Some f => insert_key f set | None => set end)
      else set
    | _, _ => set
    end.
  (** Node.cpp:1713-1726 *)
  Definition get_validators (n : node) (b : header) : list bytes := collect n max_history (find_prev n (Some b) commit_delay) [].

  (** Node_update.cpp:197-223, one round of the loop.  [connected]: whether the blocks that are needed for a block next to the root are there. *)
  Definition connect (root : header) (connected : header -> bool) (fs : list fork) (h : bytes) : list fork :=
    match find_fork fs h with
    | None => fs
    | Some f =>
      let b := f_block f in
      let f' :=
        if h_height b =? h_height root + 1 then
          mk_fork b (f_prev f) (f_invalid f) (f_validated f) (f_connected f || connected b) (f_proof f) (f_all f) (f_votes f) (f_total f) (f_root f) (f_validators f)
        else
          let p := match lock fs (f_prev f) with
                   | Some _ => f_prev f
                   | None => match find_fork fs (h_prev b) with Some _ => Some (h_prev b) | None => None end
                   end in
          match lock fs p with
          | Some g => mk_fork b p (f_invalid g || f_invalid f) (f_validated f) (f_connected g) (f_proof f) (f_all f) (f_votes f) (f_total f) (f_root f) (f_validators f)
          | None => mk_fork b p (f_invalid f) (f_validated f) false (f_proof f) (f_all f) (f_votes f) (f_total f) (f_root f) (f_validators f)
          end in
      modify h (fun _ => f') fs
    end.
  (** Node_update.cpp:221-261: the task for one fork.  The tasks run after the loop: the code starts them while the loop goes on, and then a later round may already
      see that its predecessor is invalid, which find_best_fork finds out in any case.
      [check]: [None] while the VDF points of the block are missing, otherwise whether verify_proof accepts the block. *)
  Definition verify_task (n : node) (check : header -> option bool) (f : fork) : fork :=
    if negb (f_connected f) || f_invalid f || f_proof f then f
    else match check (f_block f) with
         | None => f
         | Some true => mk_fork (f_block f) (f_prev f) (f_invalid f) (f_validated f) (f_connected f) true (f_all f) (f_votes f) (f_total f) (f_root f)
                          (map (fun k => (k, false)) (get_validators n (f_block f)))
         | Some false => mk_fork (f_block f) (f_prev f) true (f_validated f) (f_connected f) (f_proof f) (f_all f) (f_votes f) (f_total f) (f_root f) (f_validators f)
         end.
  (** Node_update.cpp:192-264 *)
  Definition verify_block_proofs (connected : header -> bool) (check : header -> option bool) (n : node) : node :=
    let fs := fold_left (connect (n_root n) connected) (map f_hash (n_forks n)) (n_forks n) in
    set_forks n (map (verify_task (set_forks n fs) check) fs).

  (** ** Votes *)
  Fixpoint mark (k : bytes) (l : list (bytes * bool)) : list (bytes * bool) :=
    match l with [] => [] | (x, v) :: l => if addr_eqb x k then (x, true) :: l else (x, v) :: mark k l end.
  Fixpoint lookup (k : bytes) (l : list (bytes * bool)) : option bool :=
    match l with [] => None | (x, v) :: l => if addr_eqb x k then Some v else lookup k l end.
  (** Node_update.cpp:114-157, one vote of the queue: the forks, what goes back into the queue, what is published.
      [best b]: whether the proof of the block is the best one that is known for its challenge. *)
  Definition verify_vote (best : header -> bool) (late : vote -> bool) (n : node) (v : vote) : node :=
    let keep := mk_node (n_root n) (n_forks n) (n_main n) (n_stored n) (n_queue n ++ [v]) (n_published n) in
    if late v then n
    else match find_fork (n_forks n) (v_hash v) with
         | None => keep
         | Some f =>
           if f_proof f then
             if negb (best (f_block f)) then n
             else match lookup (v_key v) (f_validators f) with
                  | None => n
                  | Some true => n
                  | Some false =>
                    let f' := mk_fork (f_block f) (f_prev f) (f_invalid f) (f_validated f) (f_connected f) (f_proof f) (f_all f)
                                ((f_votes f + 1) mod 2 ^ 32) (f_total f) (f_root f) (mark (v_key v) (f_validators f)) in
                    mk_node (n_root n) (modify (v_hash v) (fun _ => f') (n_forks n)) (n_main n) (n_stored n) (n_queue n) (v :: n_published n)
                  end
           else keep
         end.
  (** Node_update.cpp:107-161 *)
  Definition verify_votes (best : header -> bool) (late : vote -> bool) (n : node) : node :=
    fold_left (verify_vote best late) (n_queue n) (mk_node (n_root n) (n_forks n) (n_main n) (n_stored n) [] (n_published n)).
  (** Node.cpp:478-486; [vote_ok]: ValidatorVote::is_valid, src/ValidatorVote.cpp:13-17, the signature of the farmer over the block *)
  Definition handle_vote (vote_ok : vote -> bool) (best : header -> bool) (late : vote -> bool) (v : vote) (n : node) : node :=
    if vote_ok v then verify_votes best late (mk_node (n_root n) (n_forks n) (n_main n) (n_stored n) (n_queue n ++ [v]) (n_published n)) else n.

  (** ** The best fork: Node.cpp:818-879 *)
  (** 827-838, the fork itself is changed.  [waiting r]: 840-842, whether backward sync has to be finished before a fork from the root [r] can be used. *)
  Definition inherit (n : node) (fs : list fork) (f : fork) : fork :=
    let b := f_block f in
    if h_height b =? h_height (n_root n) + 1 then
      mk_fork b (f_prev f) (f_invalid f) (f_validated f) (f_connected f) (f_proof f) (f_proof f) (f_votes f) (f_votes f) (get_header n (h_prev b)) (f_validators f)
    else match lock fs (f_prev f) with
         | Some g => mk_fork b (f_prev f) (f_invalid g || f_invalid f) (f_validated f) (f_connected f) (f_proof f) (f_all g && f_proof f) (f_votes f)
                       ((f_total g + f_votes f) mod 2 ^ 32) (f_root g) (f_validators f)
         | None => mk_fork b (f_prev f) (f_invalid f) (f_validated f) (f_connected f) (f_proof f) false (f_votes f) (f_total f) (f_root f) (f_validators f)
         end.
  (** 849-873: whether [f] replaces [best] *)
  Definition replaces (f best : fork) (rf rb : header) : bool :=
    let is_deep := h_weight rb <? h_weight rf in
    let is_same := h_weight rb <=? h_weight rf in
    let heavier := h_weight (f_block best) <=? h_weight (f_block f) in
    if heavier && is_deep then true
    else if heavier || is_same then
      if f_total best <? f_total f then true
      else if f_total f =? f_total best then
        if f_height best <? f_height f then true
        else if f_height f =? f_height best then match bytescmp (f_hash f) (f_hash best) with Lt => true | _ => false end
        else false
      else false
    else false.
  Definition choose (waiting : header -> bool) (root : header) (best : option fork) (f : fork) : option fork :=
    match f_root f with
    | None => best
    | Some rf =>
      if negb (addr_eqb (h_hash rf) (h_hash root)) && waiting rf then best
      else if f_all f && negb (f_invalid f) then
        match best with
        | None => Some f
        | Some g => match f_root g with Some rg => if replaces f g rf rg then Some f else best | None => best end
        end
      else best
    end.
  Definition best_step (waiting : header -> bool) (n : node) (acc : list fork * option fork) (h : bytes) : list fork * option fork :=
    match find_fork (fst acc) h with
    | None => acc
    | Some f => if h_height (n_root n) <? f_height f   (** upper_bound *)
                then let f' := inherit n (fst acc) f in (modify h (fun _ => f') (fst acc), choose waiting (n_root n) (snd acc) f')
                else acc
    end.
  Definition find_best_fork (waiting : header -> bool) (n : node) : list fork * option fork :=
    fold_left (best_step waiting n) (map f_hash (n_forks n)) (n_forks n, None).

  (** ** Switching to a fork *)
  (** Node.cpp:881-898: the forks from the one next to the root to [f]; [None]: an exception *)
  Fixpoint walk_line (n : node) (fuel : nat) (f : option fork) (acc : list fork) : option (list fork) :=
    match fuel, f with
    | S k, Some f =>
      if (f_height f =? h_height (n_root n) + 1) && match get_header n (h_prev (f_block f)) with Some _ => true | None => false end
      then Some (f :: acc)
      else walk_line n k (lock (n_forks n) (f_prev f)) (f :: acc)
    | _, _ => None
    end.
  Definition fork_line (n : node) (peak : option fork) : option (list fork) :=
    match peak with
    | None => if addr_eqb (state_hash n) (h_hash (n_root n)) then Some []
              else walk_line n (S (length (n_forks n))) (find_fork (n_forks n) (state_hash n)) []
    | Some f => walk_line n (S (length (n_forks n))) (Some f) []
    end.
  (** Node.cpp:1289 ff. as far as the chain is concerned *)
  Definition revert (height : N) (n : node) : node :=
    mk_node (n_root n) (n_forks n) (filter (fun b => h_height b <? height) (n_main n)) (n_stored n) (n_queue n) (n_published n).
  (** Node.cpp:1031 ff.: the block is written to disk and becomes the last one *)
  Definition apply_block (b : header) (n : node) : node :=
    mk_node (n_root n) (n_forks n) (b :: n_main n) (b :: n_stored n) (n_queue n) (n_published n).

  Variable ok : header -> bool.
  (** Node_validate.cpp:127-145: the block fits to the one applied last; the rest is [ok] *)
  Definition validate (n : node) (b : header) : bool :=
    match get_header n (h_prev b) with
    | Some p => addr_eqb (h_hash p) (state_hash n) && (h_height b =? h_height p + 1) && ok b
    | None => false
    end.
  Definition set_invalid (f : fork) : fork :=
    mk_fork (f_block f) (f_prev f) true (f_validated f) (f_connected f) (f_proof f) (f_all f) (f_votes f) (f_total f) (f_root f) (f_validators f).
  Definition set_validated (f : fork) : fork :=
    mk_fork (f_block f) (f_prev f) (f_invalid f) true (f_connected f) (f_proof f) (f_all f) (f_votes f) (f_total f) (f_root f) (f_validators f).
  (** Node.cpp:787-815; the second component: whether all blocks were accepted *)
  Fixpoint apply_line (line : list bytes) (n : node) : node * bool :=
    match line with
    | [] => (n, true)
    | h :: l =>
      match find_fork (n_forks n) h with
      | None => (n, true)
      | Some f =>
        let b := f_block f in
        if negb (addr_eqb (h_prev b) (state_hash n)) then apply_line l n
        else if f_validated f then apply_line l (apply_block b n)
        else if validate n b then apply_line l (apply_block b (set_forks n (modify h set_validated (n_forks n))))
        else (set_forks n (modify h set_invalid (n_forks n)), false)
      end
    end.
  (** Node.cpp:765-785: the last block of the line that is applied already *)
  Fixpoint forked_at (main : list bytes) (line : list header) (at_ : header) : header :=
    match line with [] => at_ | b :: l => if member (h_hash b) main then forked_at main l b else at_ end.
  (** Node.cpp:690-707: the blocks between the new root and the main chain, the oldest first, and where they begin; [None]: an exception *)
  Fixpoint walk_root (n : node) (fuel : nat) (b : option header) (acc : list header) : option (header * list header) :=
    match fuel, b with
    | S k, Some b => if existsb (fun m => (h_height m =? h_height b) && addr_eqb (h_hash m) (h_hash b)) (n_main n) then Some (b, acc)
                     else walk_root n k (get_header n (h_prev b)) (b :: acc)
    | _, _ => None
    end.
  Fixpoint apply_root (l : list header) (proof_ok : header -> bool) (n : node) : option node :=
    match l with [] => Some n | b :: l => if proof_ok b && validate n b then apply_root l proof_ok (apply_block b n) else None end.
  (** Node.cpp:672-816; the results: all blocks applied; a block was rejected; an exception before anything was changed; the branch at 734-761, which loads everything
      from disk again, is not modelled further *)
  Inductive outcome := Done (n : node) | Rejected (n : node) | Thrown | Reset.
  Definition switch (proof_ok : header -> bool) (n : node) (peak : fork) : outcome :=
    match fork_line n (Some peak) with
    | None => Thrown
    | Some [] => Done n
    | Some ((first :: _) as line) =>
      let go n := match apply_line (map f_hash line) n with (n, true) => Done n | (n, false) => Rejected n end in
      if addr_eqb (h_prev (f_block first)) (h_hash (n_root n)) then
        match fork_line n None with
        | None => Thrown
        | Some main =>
          let p := forked_at (map f_hash main) (map f_block line) (n_root n) in
          go (if addr_eqb (h_hash p) (state_hash n) then n else revert (h_height p + 1) n)
        end
      else
        match get_header n (h_prev (f_block first)) with
        | None => Thrown
        | Some r =>
          match walk_root n (S (length (n_forks n) + length (n_stored n))) (Some r) [] with
          | None => Reset
          | Some (p, l) =>
            match apply_root l proof_ok (revert (h_height p + 1) n) with
            | None => Reset
            | Some n => go (mk_node r (n_forks n) (n_main n) (n_stored n) (n_queue n) (n_published n))
            end
          end
        end
    end.
  (** Node.cpp:654-670 *)
  Definition switch_back (proof_ok : header -> bool) (h : bytes) (n : node) : outcome :=
    if addr_eqb h (state_hash n) then Done n
    else match find_fork (n_forks n) h with
         | Some f => switch proof_ok n f
         | None => if addr_eqb h (h_hash (n_root n)) then Done (revert (h_height (n_root n) + 1) n) else Thrown
         end.
  (** Node_update.cpp:278-304, with [fuel] rounds; [None]: more rounds are needed, or something that is not modelled happens *)
  Fixpoint choose_peak (fuel : nat) (waiting proof_ok : header -> bool) (n : node) : option node :=
    match fuel with
    | O => None
    | S k =>
      let '(fs, best) := find_best_fork waiting n in
      let n := set_forks n fs in
      match best with
      | None => Some n
      | Some f =>
        if addr_eqb (f_hash f) (state_hash n) then Some n
        else
          let again n := choose_peak k waiting proof_ok (set_forks n (modify (f_hash f) set_invalid (n_forks n))) in
          match switch proof_ok n f with
          | Done n => Some n
          | Rejected n' => match switch_back proof_ok (state_hash n) n' with Done n'' => again n'' | _ => None end   (** Node.cpp:802 *)
          | Thrown => again n
          | Reset => None
          end
      end
    end.
  (** Node.cpp:936-1012 *)
  Definition commit (b : header) (n : node) : node :=
    let gone := filter (fun f => f_height f =? h_height b) (n_forks n) in
    mk_node b (filter (fun f => negb (f_height f =? h_height b)) (n_forks n)) (n_main n)
      (b :: map f_block (filter f_proof gone) ++ n_stored n) (n_queue n) (n_published n).
  (** Node_update.cpp:320-337; [delay]: commit_delay; [may]: the conditions about sync *)
  Fixpoint commit_line (peak : header) (delay : N) (may : header -> bool) (line : list header) (n : node) : node :=
    match line with
    | [] => n
    | b :: l => if (h_height b + delay <=? h_height peak) && may b then commit_line peak delay may l (commit b n) else n
    end.
  (** what a round of update() finds out *)
  Record news := mk_news { w_connected : header -> bool; w_check : header -> option bool; w_best : header -> bool; w_late : vote -> bool;
                           w_waiting : header -> bool; w_proof_ok : header -> bool; w_delay : N; w_may : header -> bool }.
  (** Node_update.cpp:266-304, without verify_proofs, which changes no fork *)
  Definition advance (w : news) (n : node) : option node :=
    let n := verify_votes (w_best w) (w_late w) (verify_block_proofs (w_connected w) (w_check w) n) in
    choose_peak (S (length (n_forks n))) (w_waiting w) (w_proof_ok w) n.
  (** Node_update.cpp:266-337 *)
  Definition update (w : news) (n : node) : option node :=
    match advance w n with
    | None => None
    | Some n =>
      match n_main n with
      | [] => Some n
      | peak :: _ =>
        if h_height (n_root n) <? h_height peak then
          match fork_line n (find_fork (n_forks n) (h_hash peak)) with
          | None => None
          | Some line => Some (commit_line peak (w_delay w) (w_may w) (map f_block line) n)
          end
        else Some n
      end
    end.
End PARAMS.
