(** Proofs of space a node knows, votes it casts and blocks it makes: /repo/src/Node_update.cpp, /repo/src/Node_verify.cpp, /repo/src/Node.cpp.
    The fork tree, the votes of others and the choice of the peak are those of ForkModel.
    Not modelled: VDF points (whether they are there is a parameter), the content of a block besides its parent, its height and its proofs, logging. *)
Require Import List Arith NArith ZArith Bool.
From Verif Require Import OrdLib BytesLib EngineModel ForkModel.
Import List ListNotations.
Open Scope N_scope.

(** ** Association lists for std::unordered_map and std::map *)
Fixpoint assoc {A} (k : bytes) (l : list (bytes * A)) : option A :=
  match l with [] => None | (x, v) :: l => if addr_eqb x k then Some v else assoc k l end.
Definition drop {A} (k : bytes) (l : list (bytes * A)) : list (bytes * A) := filter (fun x => negb (addr_eqb (fst x) k)) l.
Definition put {A} (k : bytes) (v : A) (l : list (bytes * A)) : list (bytes * A) := (k, v) :: drop k l.

(** ** What a node keeps *)
(** ProofOfSpaceOG, ProofOfSpaceNFT: the fields that matter here; [p_rest]: all others *)
Record proof := mk_proof { p_challenge : bytes; p_xs : list N; p_key : bytes; p_rest : bytes }.
(** include/mmx/Node.h:291-295 *)
Record pdata := mk_pdata { d_hash : bytes; d_proof : proof; d_mac : bytes }.
(** ProofResponse *)
Record response := mk_response { r_proof : proof; r_vdf : N; r_mac : bytes }.
(** A vote as it is published: key, block, and for the specification the parent and the height of the block, the hash of the proof of the block, the time, and the
    hashes of all proofs the node had for the challenge of the block *)
Record ballot := mk_ballot { c_key : bytes; c_block : bytes; c_parent : bytes; c_height : N; c_proof : bytes; c_time : Z; c_known : list bytes }.
(** A block before it is signed: Node_update.cpp:938-976; [m_known], for the specification: the hashes of all proofs the node had for the challenge *)
Record draft := mk_draft { m_prev : bytes; m_height : N; m_challenge : bytes; m_proof : list proof; m_proof_hash : bytes; m_known : list bytes }.
(** include/mmx/Node.h:531-535, 568.  [s_clock]: how often the clock was read.  [s_cast]: the votes that were published, [s_made]: the blocks that were made and signed,
    the last first. *)
Record state := mk_state {
  s_node : node; s_challenges : list (N * bytes); s_proofs : list (bytes * list pdata); s_created : list (bytes * bytes); s_voted : list (bytes * (bytes * Z));
  s_keys : list (bytes * bytes); s_queue : list (response * Z); s_clock : nat; s_cast : list ballot; s_made : list draft }.
Definition set_node (s : state) (n : node) : state :=
  mk_state n (s_challenges s) (s_proofs s) (s_created s) (s_voted s) (s_keys s) (s_queue s) (s_clock s) (s_cast s) (s_made s).
Definition set_queue (s : state) (q : list (response * Z)) : state :=
  mk_state (s_node s) (s_challenges s) (s_proofs s) (s_created s) (s_voted s) (s_keys s) q (s_clock s) (s_cast s) (s_made s).
Definition set_voted (s : state) (v : list (bytes * (bytes * Z))) : state :=
  mk_state (s_node s) (s_challenges s) (s_proofs s) (s_created s) v (s_keys s) (s_queue s) (s_clock s) (s_cast s) (s_made s).
Definition set_cast (s : state) (c : list ballot) : state :=
  mk_state (s_node s) (s_challenges s) (s_proofs s) (s_created s) (s_voted s) (s_keys s) (s_queue s) (s_clock s) c (s_made s).
Definition set_clock (s : state) (t : nat) : state :=
  mk_state (s_node s) (s_challenges s) (s_proofs s) (s_created s) (s_voted s) (s_keys s) (s_queue s) t (s_cast s) (s_made s).

Section FARM.
  (** parameters of the chain *)
  Variables (commit_delay max_history : nat) (max_validators : N).
  Variables (ok : header -> bool) (vote_ok : vote -> bool).
  Variables (block_interval_ms : Z) (max_proof_count : nat) (challenge_delay : N).
  (** src/utils.cpp: calc_proof_hash(challenge, proof_xs) *)
  Variable calc_hash : bytes -> list N -> bytes.
  (** of the header of a block: the proofs, proof_hash and vdf_height *)
  Variables (h_proofs : header -> list proof) (h_proof_hash : header -> bytes) (h_vdf : header -> N).
  (** the readings of the clock, include/mmx/utils.h:344-346, one after the other *)
  Variable clock : nat -> Z.

  Definition proof_hash (p : proof) : bytes := calc_hash (p_challenge p) (p_xs p).   (** ProofOfSpaceOG.cpp:42-45, ProofOfSpaceNFT.cpp:43-46 *)
  Definition tick (s : state) : Z * state := (clock (s_clock s), set_clock s (S (s_clock s))).

  (** ** Proofs *)
  (** std::sort with the order of Node_verify.cpp:45-48 *)
  Fixpoint insert_proof (d : pdata) (l : list pdata) : list pdata :=
    match l with [] => [d] | x :: l' => match bytescmp (d_hash d) (d_hash x) with Lt => d :: l | _ => x :: insert_proof d l' end end.
  Definition sort_proofs (l : list pdata) : list pdata := fold_left (fun acc d => insert_proof d acc) l [].
  Definition proofs_of (s : state) (challenge : bytes) : list pdata := match assoc challenge (s_proofs s) with Some l => l | None => [] end.
  (** Node_verify.cpp:24-49; [pipe]: vnx::get_pipe, whether the farmer is one of ours and is running *)
  Definition add_proof (pipe : bytes -> bool) (p : proof) (vdf_height : N) (mac : bytes) (s : state) : state :=
    let list := proofs_of s (p_challenge p) in
    let hash := proof_hash p in
    if existsb (fun e => addr_eqb (d_hash e) hash) list then s
    else mk_state (s_node s)
           (match list with [] => (vdf_height, p_challenge p) :: s_challenges s | _ => s_challenges s end)
           (put (p_challenge p) (sort_proofs (list ++ [mk_pdata hash p mac])) (s_proofs s))
           (s_created s) (s_voted s)
           (if pipe mac then put (p_key p) mac (s_keys s) else s_keys s)
           (s_queue s) (s_clock s) (s_cast s) (s_made s).
  (** Node.cpp:1767-1777 *)
  Definition find_best_proof (s : state) (challenge : bytes) : option pdata := match proofs_of s challenge with [] => None | d :: _ => Some d end.
  (** block->proof[0]->challenge *)
  Definition h_challenge (b : header) : option bytes := match h_proofs b with [] => None | p :: _ => Some (p_challenge p) end.
  (** Node_update.cpp:125-128, 447-448: whether the block is made from the best proof that is known *)
  Definition is_best (s : state) (b : header) : bool :=
    match h_challenge b with
    | None => false
    | Some c => match find_best_proof s c with Some d => addr_eqb (h_proof_hash b) (d_hash d) | None => false end
    end.

  (** Node.cpp:473-476 *)
  Definition handle_proof (r : response) (s : state) : state := let '(t, s) := tick s in set_queue s (s_queue s ++ [(r, t)]).
  (** Node_update.cpp:160-190; [verify]: Node_verify.cpp:51-72, [vdf_height]: get_vdf_height().  The tasks are run in the order of the queue. *)
  Definition verify_proofs (pipe : bytes -> bool) (verify : response -> bool) (vdf_height : N) (s : state) : state :=
    let '(now, s) := tick s in
    let timeout := (10 * block_interval_ms)%Z in
    let live := filter (fun e => negb (timeout <? now - snd e)%Z) (s_queue s) in
    let try_again := filter (fun e => vdf_height + challenge_delay <=? r_vdf (fst e)) live in
    let todo := filter (fun e => negb (vdf_height + challenge_delay <=? r_vdf (fst e))) live in
    set_queue (fold_left (fun s e => if verify (fst e) then add_proof pipe (r_proof (fst e)) (r_vdf (fst e)) (r_mac (fst e)) s else s) todo s) try_again.
  (** Node_update.cpp:236-239: the first proof of a block that was just verified; [before]: the forks before that *)
  Definition add_block_proofs (pipe : bytes -> bool) (before : list fork) (s : state) : state :=
    fold_left (fun s f =>
      let fresh := f_proof f && negb (existsb (fun g => addr_eqb (f_hash g) (f_hash f) && f_proof g) before) in
      match fresh, h_proofs (f_block f) with
      | true, p :: _ => add_proof pipe p (h_vdf (f_block f)) (repeat 0 8%nat) s
      | _, _ => s
      end) (n_forks (s_node s)) s.
  (** Node.cpp:944-952, for all blocks that are committed at once: [top] is the last of them, the VDF height grows along a chain *)
  Definition purge (top : header) (s : state) : state :=
    let gone := filter (fun e => fst e <=? h_vdf top) (s_challenges s) in
    mk_state (s_node s) (filter (fun e => negb (fst e <=? h_vdf top)) (s_challenges s)) (fold_left (fun m e => drop (snd e) m) gone (s_proofs s))
      (s_created s) (s_voted s) (s_keys s) (s_queue s) (s_clock s) (s_cast s) (s_made s).

  (** ** Votes *)
  (** Node.cpp:478-486 *)
  Definition receive_vote (late : vote -> bool) (v : vote) (s : state) : state := set_node s (handle_vote vote_ok (is_best s) late v (s_node s)).
  (** Node.cpp:898-925, one validator.  [signs]: whether the farmer answers; the clock is read once more than in the code, for the time at which the vote goes out. *)
  Definition vote_with (signs : bytes -> bool) (f : fork) (s : state) (key : bytes) : state :=
    match assoc key (s_keys s) with
    | None => s
    | Some _ =>
      let b := f_block f in
      let '(t, s) := tick s in
      let known := match h_challenge b with Some c => map d_hash (proofs_of s c) | None => [] end in
      let s := if signs key then set_cast s (mk_ballot key (h_hash b) (h_prev b) (h_height b) (h_proof_hash b) t known :: s_cast s) else s in
      let '(t, s) := tick s in
      set_voted s (put (h_prev b) (h_hash b, t) (s_voted s))
    end.
  Definition vote_for_block (signs : bytes -> bool) (f : fork) (s : state) : state := fold_left (vote_with signs f) (map fst (f_validators f)) s.
  (** Node_update.cpp:443-451 *)
  Definition vote_peak (signs : bytes -> bool) (peak : header) (f : option fork) (s : state) : state :=
    match f with
    | None => s
    | Some f =>
      if h_height peak =? 0 then s
      else match assoc (h_prev peak) (s_voted s) with
           | Some _ => s
           | None => if is_best s peak then vote_for_block signs f s else s
           end
    end.
  (** Node_update.cpp:453-466 *)
  Definition vote_again (signs : bytes -> bool) (now : Z) (s : state) (f : fork) : state :=
    match assoc (h_prev (f_block f)) (s_voted s) with
    | Some (h, t) => if addr_eqb h (f_hash f) then s else if (block_interval_ms <? now - t)%Z then vote_for_block signs f s else s
    | None => s
    end.

  (** ** Blocks *)
  (** Node_update.cpp:923-1052: the parts about the proofs.  [sign]: everything else up to the signature of the farmer: the hash and the total weight of the block, or
      [None] for an exception or a farmer that refuses.  The changes of state to [prev] and back are those of ReorgModel; the block is added as in 485-487, 513-515. *)
  Definition make_block (sign : draft -> option (bytes * N)) (prev : header) (challenge : bytes) (s : state) : state :=
    match proofs_of s challenge with
    | [] => s
    | (d :: _) as list =>
      let m := mk_draft (h_hash prev) (h_height prev + 1) challenge (map d_proof (firstn max_proof_count list)) (d_hash d) (map d_hash list) in
      match sign m with
      | None => s
      | Some (h, w) =>
        let b := mk_header h (m_prev m) (m_height m) w (Some (p_key (d_proof d))) in
        mk_state (add_block b (s_node s)) (s_challenges s) (s_proofs s) (put (m_proof_hash m) h (s_created s)) (s_voted s) (s_keys s) (s_queue s) (s_clock s)
          (s_cast s) (m :: s_made s)
      end
    end.
  (** Node_update.cpp:470-496, 499-526: a block on top of [prev] if the best proof is one of ours and was not used before; [points]: whether the VDF points are there *)
  Definition try_block (pipe : bytes -> bool) (points : header -> bool) (sign : draft -> option (bytes * N)) (prev : option header) (challenge : option bytes) (s : state) : state :=
    match challenge with
    | None => s
    | Some c =>
      match find_best_proof s c with
      | None => s
      | Some d =>
        if pipe (d_mac d) then
          match assoc (d_hash d) (s_created s), prev with
          | None, Some b => if points b then make_block sign b c s else s
          | _, _ => s
          end
        else s
      end
    end.

  (** ** One round of update() *)
  (** what is found out from outside; [o_news]: see ForkModel, its [w_best] is not used *)
  Record outside := mk_outside { o_pipe : bytes -> bool; o_verify : response -> bool; o_vdf : N; o_news : news; o_synced : bool; o_signs : bytes -> bool;
                                 o_points : header -> bool; o_next : header -> option bytes; o_sign : draft -> option (bytes * N) }.
  (** Node_update.cpp:260-528, [None]: an exception, or something that ForkModel does not cover.
      [o_next]: find_challenge for the block after the peak, 502-505. *)
  Definition round (o : outside) (s : state) : option state :=
    let s := verify_proofs (o_pipe o) (o_verify o) (o_vdf o) s in
    let w := o_news o in
    (* the forks after verify_block_proofs, to see which proofs are new *)
    let n1 := verify_block_proofs commit_delay max_history max_validators (w_connected w) (w_check w) (s_node s) in
    let s1 := set_node (add_block_proofs (o_pipe o) (n_forks (s_node s)) (set_node s n1)) (s_node s) in
    let w := mk_news (w_connected w) (w_check w) (is_best s1) (w_late w) (w_waiting w) (w_proof_ok w) (w_delay w) (w_may w) in
    match update commit_delay max_history max_validators ok w (s_node s1) with
    | None => None
    | Some n =>
      let root := n_root (s_node s1) in
      let s := set_node s1 n in
      let s := if addr_eqb (h_hash (n_root n)) (h_hash root) then s else purge (n_root n) s in
      match get_header n (state_hash n) with   (* get_peak, Node.cpp:1436-1439 *)
      | None => Some s
      | Some peak =>
        let '(now, s) := tick s in
        let f := find_fork (n_forks n) (h_hash peak) in
        match fork_line n f with
        | None => None
        | Some line =>
          if o_synced o then
            let s := vote_peak (o_signs o) peak f s in
            let s := fold_left (vote_again (o_signs o) now) line s in
            let s := if h_height peak =? 0 then s
                     else try_block (o_pipe o) (o_points o) (o_sign o) (get_header n (h_prev peak)) (h_challenge peak) s in
            Some (try_block (o_pipe o) (o_points o) (o_sign o) (Some peak) (o_next o peak) s)
          else Some s
        end
      end
    end.

  (** ** What happens to a node *)
  Inductive event :=
  | NewBlock (b : header)
  | NewVote (late : vote -> bool) (v : vote)
  | NewProof (r : response)
  | Round (o : outside)
  | Time (n : nat).   (** time goes by *)
  Definition happens (e : event) (s : state) : option state :=
    match e with
    | NewBlock b => Some (set_node s (add_block b (s_node s)))
    | NewVote late v => Some (receive_vote late v s)
    | NewProof r => Some (handle_proof r s)
    | Round o => round o s
    | Time n => Some (set_clock s (s_clock s + n))
    end.
  Fixpoint history (l : list event) (s : state) : option state :=
    match l with [] => Some s | e :: l => match happens e s with Some s => history l s | None => None end end.
  (** Node.cpp: a node that starts at [root] with the blocks before it: nothing of the rest is kept on disk *)
  Definition start (root : header) (older : list header) (t : nat) : state :=
    mk_state (mk_node root [] (root :: older) (root :: older) [] []) [] [] [] [] [] [] t [] [].
  (** The end of a node and a new start: what is published stays published. *)
  Definition restart (root : header) (older : list header) (s : state) : state :=
    mk_state (mk_node root [] (root :: older) (root :: older) [] []) [] [] [] [] [] [] (s_clock s) (s_cast s) (s_made s).

  (** ** The check of a block: Node_verify.cpp:87-110 *)
  Fixpoint check_order (prev : bytes) (set : list bytes) (first : bool) (expect : bytes) (l : list proof) : bool :=
    match l with
    | [] => true
    | p :: l =>
      let hash := proof_hash p in
      match bytescmp hash prev with Lt => false | _ =>
        if first && negb (addr_eqb expect hash) then false
        else if member hash set then false
        else check_order hash (hash :: set) false expect l
      end
    end.
  Definition check_proofs (l : list proof) (expect : bytes) : bool :=
    negb (length l =? 0)%nat && (length l <=? max_proof_count)%nat && check_order (repeat 0 32%nat) [] true expect l.
End FARM.
