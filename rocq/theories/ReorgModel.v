(** Switching between chains and what it does to the tables: /repo/src/Node.cpp.
    The tables of the database are one versioned table from keys to values (all of them move together: C68; a single one: C01-C03), besides height_map and farmer_block_map,
    which are kept apart.  tx_index, which holds file offsets, is left out.  Hashes and farmer keys are numbers.  What a block does to the tables and whether it is valid are
    functions of the block and of the tables (the headers of its ancestors are given by the hash of its predecessor).  Not modelled: the transaction pool, errors of the
    file system, the order of the ranking, votes and proofs (which fork is tried is up to the list of operations). *)
Require Import List Arith NArith Bool.
Import ListNotations.
From Verif Require Import DbModel DbSpec.
Open Scope N_scope.

Record block := mk_block { b_hash : N; b_prev : N; b_height : N; b_farmer : N; b_data : N }.

Definition pair_dec : forall x y : N * N, {x = y} + {x <> y}.
Proof. decide equality; apply N.eq_dec. Defined.

Section REORG.
  Variables (K V C : Type) (K_eqb : K -> K -> bool).
  (** the tables as read by validation and by apply *)
  Definition view := K -> option V.
  (** Node_validate.cpp: [Some]: valid, with the storage that execution leaves (execution_context_t) *)
  Variable valid : view -> block -> option C.
  (** Node.cpp:1029-1100 and 1164-1287: what apply() writes *)
  Variable effects : view -> block -> option C -> list (K * V).
  Variable genesis : block.
  Variable commit_delay : N.

  (** Node.cpp:157-186 *)
  Record db := mk_db { d_map : @spec N N; d_farm : @spec (N * N) unit; d_tab : @spec K V }.
  Definition db0 : db := mk_db (@a_init _ _) (@a_init _ _) (@a_init _ _).
  Definition the_view (d : db) : view := fun k => a_find K_eqb (d_tab d) k (a_cur (d_tab d)).
  (** height_map.find *)
  Definition hash_at (d : db) (h : N) : option N := a_find N.eqb (d_map d) h (a_cur (d_map d)).
  (** height_map.find_last *)
  Definition find_last (d : db) : option (N * N) :=
    match map wkey (a_writes (d_map d)) with
    | [] => None
    | k :: l => let m := fold_left N.max l k in match hash_at d m with Some x => Some (m, x) | None => None end
    end.
  (** DataBase.cpp:1034-1043 *)
  Definition revert_db (h : N) (d : db) : db := mk_db (a_revert h (d_map d)) (a_revert h (d_farm d)) (a_revert h (d_tab d)).
  (** Node.cpp:1052-1148, the tables: all writes, then commit *)
  Definition apply_db (b : block) (c : option C) (d : db) : db :=
    let n := b_height b + 1 in
    mk_db (a_commit n (a_insert (b_height b) (b_hash b) (d_map d)))
          (a_commit n (if b_height b =? 0 then d_farm d else a_insert (b_farmer b, b_height b) tt (d_farm d)))
          (a_commit n (fold_left (fun a e => a_insert (fst e) (snd e) a) (effects (the_view d) b c) (d_tab d))).

  (** Node.h: fork_t *)
  Record fork := mk_fork { f_block : block; f_invalid : bool; f_validated : bool; f_ctx : option C }.
  (** [n_stored]: block_index and blocks.dat; [n_rank]: farmer_ranking; [n_trace]: database and stored blocks at every moment of the operation so far, which is what a crash may leave *)
  Record node := mk_node { n_root : option block; n_forks : list fork; n_db : db; n_stored : list block; n_state : N; n_rank : list (N * N);
                           n_trace : list (db * list block) }.

  Definition find_fork (n : node) (h : N) : option fork := List.find (fun f => b_hash (f_block f) =? h) (n_forks n).
  Definition find_stored (n : node) (h : N) : option block := List.find (fun b => b_hash b =? h) (n_stored n).
  (** Node_api.cpp:175-196 *)
  Definition get_block (n : node) (h : N) : option block := match find_fork n h with Some f => Some (f_block f) | None => find_stored n h end.
  Definition modify (h : N) (g : fork -> fork) (fs : list fork) : list fork := map (fun f => if b_hash (f_block f) =? h then g f else f) fs.
  Definition set_forks (fs : list fork) (n : node) : node := mk_node (n_root n) fs (n_db n) (n_stored n) (n_state n) (n_rank n) (n_trace n).
  Definition set_root (r : option block) (n : node) : node := mk_node r (n_forks n) (n_db n) (n_stored n) (n_state n) (n_rank n) (n_trace n).

  (** ** farmer_ranking *)
  Fixpoint count_up (k : N) (l : list (N * N)) : list (N * N) :=            (** Node.cpp:1125-1136 *)
    match l with [] => [(k, 1)] | (a, c) :: l => if a =? k then (a, c + 1) :: l else (a, c) :: count_up k l end.
  Fixpoint count_down (k : N) (l : list (N * N)) : list (N * N) :=          (** Node.cpp:1298-1306 *)
    match l with [] => [] | (a, c) :: l => if a =? k then (a, c - 1) :: l else (a, c) :: count_down k l end.
  (** Node.cpp:1339-1349: the keys of farmer_block_map *)
  Definition recount (d : db) : list (N * N) :=
    fold_left (fun r e => count_up (fst e) r)
      (nodup pair_dec (map wkey (a_writes (d_farm d)))) [].
  (** Node.cpp:1295-1308: from the peak down to [h] *)
  Fixpoint walk_down (fuel : nat) (n : node) (b : option block) (h : N) (r : list (N * N)) : list (N * N) :=
    match fuel, b with
    | S k, Some b => if h <=? b_height b
                     then walk_down k n (get_block n (b_prev b)) h (if b_height b =? 0 then r else count_down (b_farmer b) r)
                     else r
    | _, _ => r
    end.

  (** Node.cpp:1868-1929 *)
  Definition write_block (b : block) (n : node) : node :=
    match find_stored n (b_hash b) with
    | Some _ => n
    | None => mk_node (n_root n) (n_forks n) (n_db n) (b :: n_stored n) (n_state n) (n_rank n) ((n_db n, b :: n_stored n) :: n_trace n)
    end.
  (** Node.cpp:1029-1162; [None]: an exception before anything is written *)
  Definition apply (b : block) (c : option C) (n : node) : option node :=
    if b_prev b =? n_state n then
      let n := write_block b n in
      let d := apply_db b c (n_db n) in
      Some (mk_node (n_root n) (n_forks n) d (n_stored n) (b_hash b)
              (if b_height b =? 0 then n_rank n else count_up (b_farmer b) (n_rank n)) ((d, n_stored n) :: n_trace n))
    else None.
  (** Node.cpp:1289-1353 *)
  Definition revert (h : N) (n : node) : node :=
    let is_deep := match n_root n with Some r => h <=? b_height r | None => true end in
    let rank := if is_deep then n_rank n else walk_down (S (length (n_forks n) + length (n_stored n))) n (get_block n (n_state n)) h (n_rank n) in
    let d := revert_db h (n_db n) in
    let rank := if is_deep || match rank with [] => true | _ => false end then recount d else rank in
    mk_node (n_root n) (n_forks n) d (n_stored n) (match find_last d with Some (_, x) => x | None => 0 end) rank ((d, n_stored n) :: n_trace n).

  (** Node_validate.cpp:127-145 and the rest of validate(block) *)
  Definition validate (n : node) (b : block) : option C :=
    match get_block n (b_prev b) with
    | Some p => if (b_hash p =? n_state n) && (b_height b =? b_height p + 1) then valid (the_view (n_db n)) b else None
    | None => None
    end.

  (** Node.cpp:390-410 *)
  Definition add_fork (b : block) (n : node) : node :=
    match n_root n with
    | Some r => if b_height b <=? b_height r then n
                else match find_fork n (b_hash b) with
                     | Some _ => n
                     | None => set_forks (mk_fork b false false None :: n_forks n) n
                     end
    | None => n
    end.
  (** Node.cpp:366-388 for a block that passed is_valid() and validate() *)
  Definition add_block (b : block) (n : node) : node :=
    match n_root n with
    | Some r => if b_height b <=? b_height r then write_block b n else add_fork b n
    | None => n
    end.

  (** Node.cpp:881-898; fork->prev is looked up by hash (as verify_block_proofs does before any switch); [None]: an exception *)
  Fixpoint walk_line (n : node) (r : block) (fuel : nat) (f : option fork) (acc : list block) : option (list block) :=
    match fuel, f with
    | S k, Some f =>
      let b := f_block f in
      if (b_height b =? b_height r + 1) && match get_block n (b_prev b) with Some _ => true | None => false end
      then Some (b :: acc)
      else walk_line n r k (find_fork n (b_prev b)) (b :: acc)
    | _, _ => None
    end.
  Definition fork_line (n : node) (peak : option fork) : option (list block) :=
    match n_root n with
    | None => None
    | Some r =>
      match peak with
      | None => if n_state n =? b_hash r then Some [] else walk_line n r (S (length (n_forks n))) (find_fork n (n_state n)) []
      | Some f => walk_line n r (S (length (n_forks n))) (Some f) []
      end
    end.

  Definition set_invalid (f : fork) : fork := mk_fork (f_block f) true (f_validated f) (f_ctx f).
  (** how a call ends: it returns, it throws; the fuel is used up (never happens) *)
  Inductive outcome := Returns (n : node) | Throws (n : node) | Spent.
  (** Node.cpp:787-815 up to the call that goes back *)
  Fixpoint apply_line (line : list block) (n : node) : outcome :=
    match line with
    | [] => Returns n
    | b :: l =>
      if negb (b_prev b =? n_state n) then apply_line l n
      else match find_fork n (b_hash b) with
           | None => Throws n
           | Some f =>
             if f_validated f then match apply b (f_ctx f) n with Some n => apply_line l n | None => Throws n end
             else match validate n b with
                  | Some c => let n := set_forks (modify (b_hash b) (fun f => mk_fork (f_block f) (f_invalid f) true (Some c)) (n_forks n)) n in
                              match apply b (Some c) n with Some n => apply_line l n | None => Throws n end
                  | None => Throws (set_forks (modify (b_hash b) set_invalid (n_forks n)) n)
                  end
           end
    end.
  (** Node.cpp:772-780 *)
  Fixpoint last_common (main : list N) (line : list block) (at_ : block) : block :=
    match line with [] => at_ | b :: l => if existsb (N.eqb (b_hash b)) main then last_common main l b else at_ end.

  (** Node.cpp:1355-1417 *)
  Fixpoint check_top (fuel : nat) (n : node) (h : N) : N * node :=         (** 1370-1387 *)
    match fuel with
    | O => (h, n)
    | S k =>
      let ok := match hash_at (n_db n) h with
                | Some x => match find_stored n x with Some b => b_height b =? h | None => false end
                | None => false end in
      if ok then (h, n) else if h =? 0 then (h, n) else check_top k (revert h n) (h - 1)
    end.
  Definition reset (n : node) : outcome :=
    let n := mk_node None [] (n_db n) (n_stored n) (n_state n) (n_rank n) (n_trace n) in
    match find_last (n_db n) with
    | Some (h, x) =>
      let n := mk_node (n_root n) (n_forks n) (n_db n) (n_stored n) x (n_rank n) (n_trace n) in
      let '(h, n) := check_top (S (N.to_nat h)) n h in
      match hash_at (n_db n) (h - N.min commit_delay h) with                (** 1390 *)
      | Some x => match find_stored n x with
                  | Some r => Returns (fold_left (fun n b => if (b_height r <=? b_height b) && (b_height b <=? h) then add_fork b n else n) (n_stored n) (set_root (Some r) n))
                  | None => Throws n
                  end
      | None => Throws n
      end
    | None =>                                                               (** 1411-1416 and init_chain, 287-353 *)
      let n := mk_node (n_root n) (n_forks n) (n_db n) [] (n_state n) (n_rank n) ((n_db n, []) :: n_trace n) in
      match apply genesis None n with Some n => Returns (set_root (Some genesis) n) | None => Throws n end
    end.

  (** Node.cpp:690-707 *)
  Fixpoint walk_root (n : node) (fuel : nat) (b : option block) (acc : list block) : option (block * list block) :=
    match fuel, b with
    | S k, Some b => if match hash_at (n_db n) (b_height b) with Some x => x =? b_hash b | None => false end then Some (b, acc)
                     else walk_root n k (get_block n (b_prev b)) (b :: acc)
    | _, _ => None
    end.
  (** Node.cpp:714-727 *)
  Fixpoint apply_root (proof_ok : block -> bool) (l : list block) (n : node) : outcome :=
    match l with
    | [] => Returns n
    | b :: l => if proof_ok b
                then match validate n b with
                     | Some c => match apply b (Some c) n with Some n => apply_root proof_ok l n | None => Throws n end
                     | None => Throws n end
                else Throws n
    end.
  (** Node.cpp:737-745: the blocks to restore, the oldest first *)
  Fixpoint old_blocks (n : node) (fuel : nat) (h : N) (acc : list block) : list block :=
    match fuel with
    | O => acc
    | S k => match get_block n h with
             | Some b => if b_prev b =? n_state n then b :: acc else old_blocks n k (b_prev b) (b :: acc)
             | None => acc
             end
    end.
  Definition mark_invalid (line : list block) (n : node) : node :=
    set_forks (fold_left (fun fs b => modify (b_hash b) set_invalid fs) line (n_forks n)) n.
  (** Node.cpp:734-761: the handler, which throws in any case *)
  Definition restore (line : list block) (prev_state : N) (n : node) : node :=
    match apply_root (fun _ => true) (old_blocks n (S (length (n_forks n) + length (n_stored n))) prev_state []) n with
    | Returns n => match reset n with Returns n => mark_invalid line n | Throws n => n | Spent => n end
    | Throws n => n
    | Spent => n
    end.

  (** Node.cpp:672-816; the call that goes back calls itself no further, so that a fuel of two is enough (proved: the node is never [Spent]) *)
  Fixpoint switch (fuel : nat) (proof_ok : block -> bool) (peak : fork) (n : node) : outcome :=
    match fuel with
    | O => Spent
    | S k =>
      let prev_state := n_state n in
      (** 800-804: back to where it was *)
      let go line n := match apply_line line n with
                       | Returns n => Returns n
                       | Throws n =>
                         if prev_state =? n_state n then Throws n
                         else match find_fork n prev_state with
                              | Some f => match switch k proof_ok f n with Returns n => Throws n | x => x end
                              | None => match n_root n with
                                        | Some r => if prev_state =? b_hash r then Throws (revert (b_height r + 1) n) else Throws n
                                        | None => Throws n
                                        end
                              end
                       | Spent => Spent
                       end in
      match fork_line n (Some peak), n_root n with
      | Some ((first :: _) as line), Some r =>
        if b_prev first =? b_hash r then
          match fork_line n None with
          | None => Throws n
          | Some main =>
            let p := last_common (map b_hash main) line r in
            go line (if b_hash p =? n_state n then n else revert (b_height p + 1) n)
          end
        else
          match get_block n (b_prev first) with
          | None => Throws n
          | Some r' =>
            match walk_root n (S (length (n_forks n) + length (n_stored n))) (Some r') [] with
            | None => Throws (restore line prev_state n)
            | Some (p, l) =>
              match apply_root proof_ok l (revert (b_height p + 1) n) with
              | Returns n => go line (set_root (Some r') n)
              | Throws n => Throws (restore line prev_state n)
              | Spent => Spent
              end
            end
          end
      | Some [], _ => Returns n
      | _, _ => Throws n
      end
    end.

  (** Node.cpp:935-1012 as far as chains are concerned; [keep]: the forks of which the proof was verified *)
  Definition commit (keep : block -> bool) (b : block) (n : node) : node :=
    match n_root n with
    | Some r =>
      if b_prev b =? b_hash r then
        let gone := filter (fun f => (b_height (f_block f) =? b_height b) && negb (b_hash (f_block f) =? b_hash b)) (n_forks n) in
        let n := fold_left (fun n f => if keep (f_block f) then write_block (f_block f) n else n) gone n in
        mk_node (Some b) (filter (fun f => negb (b_height (f_block f) =? b_height b)) (n_forks n)) (n_db n) (n_stored n) (n_state n) (n_rank n) (n_trace n)
      else n
    | None => n
    end.

  (** What happens to a node: a block arrives; update() tries a fork (Node_update.cpp:278-304); the first block after the root is committed (Node_update.cpp:309-337);
      the process ends, at the moment [i] of the last operation, and the node starts again and finds its tables at version [v] (Node.cpp:155-213) *)
  Inductive op := Add (b : block) | Switch (h : N) (proof_ok : block -> bool) | Commit (keep : block -> bool) | Restart (i : nat) (v : N).
  Definition fresh_trace (n : node) : node := mk_node (n_root n) (n_forks n) (n_db n) (n_stored n) (n_state n) (n_rank n) [(n_db n, n_stored n)].
  (** [None]: the node does not start *)
  Definition start (d : db) (v : N) (stored : list block) : option node :=
    let v := N.min v (a_cur (d_map d)) in
    let d := revert_db v d in
    match reset (revert v (mk_node None [] d stored 0 [] [(d, stored)])) with Returns n => Some n | _ => None end.
  Definition step (n : node) (o : op) : option node :=
    match o with
    | Add b => Some (add_block b (fresh_trace n))
    | Switch h proof_ok =>
      let n := fresh_trace n in
      match find_fork n h with
      | None => Some n
      | Some f =>
        match switch 2 proof_ok f n with
        | Returns n => Some n
        | Throws n => Some (set_forks (modify h set_invalid (n_forks n)) n)
        | Spent => None
        end
      end
    | Commit keep =>
      let n := fresh_trace n in
      match fork_line n None with
      | Some (b :: _) => Some (commit keep b n)
      | _ => Some n
      end
    | Restart i v =>
      match nth_error (n_trace n) i with
      | Some (d, stored) => start d v stored
      | None => start (n_db n) v (n_stored n)
      end
    end.
  Fixpoint run (n : node) (l : list op) : option node :=
    match l with [] => Some n | o :: l => match step n o with Some n => run n l | None => None end end.
  (** the first start *)
  Definition node0 : option node := start db0 0 [].
End REORG.
Arguments Returns {K V C} _.
Arguments Throws {K V C} _.
Arguments Spent {K V C}.
