(** Proofs of time: /repo/src/Node_verify.cpp, /repo/src/Node_update.cpp, /repo/src/Node.cpp, /repo/src/ProofOfTime.cpp.
    Hashes, addresses and keys are numbers.  [H x]: hash_t(x.bytes), one iteration; [H2 x y]: hash_t(x + y), of the bytes of x followed by those of y.
    The SIMD routines (recursive_sha256_ni_x2, recursive_sha256_arm_x2, sha256_64_x8) are taken to compute that hash on each of their lanes.
    The OpenCL path (OCL_VDF.cpp) is not modelled. *)
Require Import List Arith NArith Bool.
Import ListNotations.

(** interface/ProofOfTime.vni *)
Record proof := mk_proof {
  p_version : N; p_hash : N; p_vdf_height : N; p_start : N; p_num_iters : N; p_segment_size : N;
  p_input : N; p_prev : N; p_reward : N; p_segments : list N; p_key : N; p_sig : N; p_content : N }.
(** interface/VDF_Point.vni, without content_hash, recv_time (a number) kept *)
Record point := mk_point {
  v_height : N; v_start : N; v_num_iters : N; v_input : N; v_output : N; v_prev : N; v_reward : N; v_recv : N }.
(** BlockHeader: the fields that matter here *)
Record block := mk_block {
  b_hash : N; b_prev : N; b_height : N; b_vdf_count : nat; b_vdf_height : nat; b_vdf_iters : N; b_vdf_output : N; b_time_diff : N }.

(** arithmetic of uint64_t *)
Definition w64 (n : N) : N := (n mod 2 ^ 64)%N.
(** conversion to uint32_t *)
Definition w32 (n : nat) : nat := N.to_nat (N.of_nat n mod 2 ^ 32).

Section VDF.
  Variable H : N -> N.
  Variable H2 : N -> N -> N.

  (** the code path of the machine: Node_verify.cpp:255-256; [junk] is what uninitialised memory holds *)
  Inductive path := Pairs (junk : N) | Lanes.

  (** [num_iters] iterations *)
  Definition iterate (n : N) (x : N) : N := N.iter n H x.

  (** Node_verify.cpp:291-308: two lanes at a time; with an odd number of lanes the last call also hashes a lane that was never set *)
  Fixpoint two_by_two (junk n : N) (l : list N) : list N :=
    match l with
    | a :: b :: r => iterate n a :: iterate n b :: two_by_two junk n r
    | [a] => firstn 1 [iterate n a; iterate n junk]
    | [] => []
    end.
  (** Node_verify.cpp:289-322: all lanes, [n] times *)
  Definition run_lanes (pa : path) (n : N) (l : list N) : list N :=
    match pa with
    | Pairs junk => two_by_two junk n l
    | Lanes => N.iter n (map H) l
    end.

  (** Node_verify.cpp:264 *)
  Definition batch_size : nat := 16.
  (** Node_verify.cpp:266 *)
  Definition num_chunks (p : proof) : nat := w32 ((length (p_segments p) + batch_size - 1) / batch_size).
  (** Node_verify.cpp:274 *)
  Definition num_lanes (p : proof) (chunk : nat) : nat := Nat.min batch_size (length (p_segments p) - chunk * batch_size).
  (** Node_verify.cpp:280-288: where segment [i] starts *)
  Definition start_of (p : proof) (i : nat) : N :=
    if (0 <? i)%nat then nth (i - 1) (p_segments p) 0%N
    else H2 (H2 (p_input p) (p_prev p)) (p_reward p).
  (** Node_verify.cpp:272-323: what is computed for a chunk *)
  Definition chunk_outputs (pa : path) (p : proof) (chunk : nat) : list N :=
    run_lanes pa (p_segment_size p) (map (fun j => start_of p (w32 (chunk * batch_size + j))) (seq 0 (num_lanes p chunk))).
  (** Node_verify.cpp:324-332: the first segment of the chunk that is wrong *)
  Definition first_bad (pa : path) (p : proof) (chunk : nat) : option nat :=
    option_map (fun j => w32 (chunk * batch_size + j))
      (find (fun j => negb (N.eqb (nth j (chunk_outputs pa p chunk) 0%N) (nth (w32 (chunk * batch_size + j)) (p_segments p) 0%N)))
            (seq 0 (num_lanes p chunk))).

  (** Node_verify.cpp:268-333: the parallel loop.  A chunk is waiting, being computed or done; a schedule is a list of chunks, each entry takes that chunk one step further:
      the test of invalid_segment (271-273), then the computation and the compare_exchange (274-332). *)
  Inductive status := Waiting | Running | Done.
  Definition pstate := ((nat -> status) * nat)%type.   (** state of each chunk; invalid_segment, 0: none *)
  Definition set_status (f : nat -> status) (c : nat) (x : status) : nat -> status := fun d => if (d =? c)%nat then x else f d.
  Definition par_step (pa : path) (p : proof) (s : pstate) (chunk : nat) : pstate :=
    let '(st, bad) := s in
    match st chunk with
    | Waiting => (set_status st chunk (if (bad =? 0)%nat then Running else Done), bad)
    | Running =>
      (set_status st chunk Done,
       match first_bad pa p chunk with
       | Some i => if (bad =? 0)%nat then w32 (i + 1) else bad
       | None => bad
       end)
    | Done => s
    end.
  Definition par_run (pa : path) (p : proof) (sched : list nat) : pstate := fold_left (par_step pa p) sched (fun _ => Waiting, 0%nat).
  Definition all_done (p : proof) (s : pstate) : bool :=
    forallb (fun c => match fst s c with Done => true | _ => false end) (seq 0 (num_chunks p)).
  (** Node_verify.cpp:252-338: [None]: the schedule did not bring every chunk to its end; [Some false]: an exception *)
  Definition verify_vdf_cpu (pa : path) (sched : list nat) (p : proof) : option bool :=
    match p_segments p with
    | [] => Some false
    | _ =>
      let s := par_run pa p sched in
      if all_done p s then Some (snd s =? 0)%nat else None
    end.

  (** ProofOfTime.cpp:48-54 *)
  Definition get_output (p : proof) : N := last (p_segments p) 0%N.

  (** ** The chain of blocks *)
  (** ChainParams *)
  Variables (infuse_delay commit_delay max_vdf_count : nat) (vdf_segment_size : N).
  (** get_block_iters (utils.h:205-209): a function of time_diff *)
  Variable block_iters : N -> N.
  (** Node::get_header (Node_api.cpp:211-214) *)
  Variable get_header : N -> option block.

  (** Node.cpp:1458-1465, clamped *)
  Fixpoint back (distance : nat) (b : block) : option block :=
    match distance with
    | O => Some b
    | S d => if N.eqb (b_height b) 0 then Some b
             else match get_header (b_prev b) with Some p => back d p | None => None end
    end.
  (** Node.cpp:1458-1465 with the default arguments *)
  Definition find_prev (b : block) : option block := get_header (b_prev b).
  (** Node.cpp:1557-1563 and utils.h:205-209; [None]: an exception *)
  Definition iters_after (infused : block) : option N :=
    match back commit_delay infused with Some p => Some (block_iters (b_time_diff p)) | None => None end.

  (** Node.cpp:1572-1574; [rounds] bounds the loop, the VDF height falls with every step *)
  Fixpoint down_to (rounds target : nat) (b : block) : option block :=
    if (target <? b_vdf_height b)%nat then
      match rounds with
      | O => None
      | S r => match find_prev b with Some p => down_to r target p | None => None end
      end
    else Some b.
  (** Node.cpp:1565-1582: infused hash and number of iterations; [None]: false or an exception *)
  Definition find_infusion (b : block) (offset : nat) : option (N * N) :=
    match
      (if (offset <? infuse_delay)%nat then
         let delta := (infuse_delay - offset)%nat in
         let target := (if (delta <? b_vdf_height b)%nat then b_vdf_height b - delta else 0)%nat in
         down_to (b_vdf_height b) target b
       else Some b)
    with
    | Some i => match iters_after i with Some n => Some (b_hash i, n) | None => None end
    | None => None
    end.

  (** ** What the node knows *)
  (** vdf_tree and vdf_index (Node.h:526-527): multimaps, elements with one key in the order of insertion *)
  Record node := mk_node { tree : list point; index : list point }.
  Definition with_output (y : N) (l : list point) : list point := filter (fun q => N.eqb (v_output q) y) l.
  (** the key of vdf_index: Node_verify.cpp:366 *)
  Definition v_end (q : point) : N := w64 (v_start q + v_num_iters q).
  Definition with_iters (k : N) (l : list point) : list point := filter (fun q => N.eqb (v_end q) k) l.

  (** Node.cpp:1606-1617 *)
  Definition find_vdf_point (nd : node) (input output : N) : option point :=
    find (fun q => N.eqb (v_input q) input && N.eqb (v_output q) output) (with_output output (tree nd)).

  (** Node.cpp:1619-1661: the points of a block from the last to the first, [n] of them still to be found; [acc]: those after *)
  Fixpoint points_back (nd : node) (prev : block) (n : nat) (output : N) (acc : list point) : option (N * list point) :=
    match n with
    | O => Some (output, acc)
    | S k =>
      match find_infusion prev k with
      | None => None
      | Some (infuse, iters) =>
        match find (fun q => N.eqb (v_output q) output && N.eqb (v_prev q) infuse && N.eqb (v_num_iters q) iters) (with_output output (tree nd)) with
        | Some q => points_back nd prev k (v_input q) (q :: acc)
        | None => None
        end
      end
    end.
  Definition find_vdf_points (nd : node) (b : block) : list point :=
    match find_prev b with
    | None => []
    | Some prev =>
      match points_back nd prev (b_vdf_count b) (b_vdf_output b) [] with
      | Some (x, l) => if N.eqb x (b_vdf_output prev) then l else []
      | None => []
      end
    end.

  (** Node_verify.cpp:113-120: the iterations between a block and the next one; [None]: an exception *)
  Fixpoint sum_iters (prev : block) (n : nat) : option N :=
    match n with
    | O => Some 0%N
    | S k =>
      match sum_iters prev k, find_infusion prev k with
      | Some s, Some (_, i) => Some (s + i)%N
      | _, _ => None
      end
    end.
  (** BlockHeader.cpp:17-20, Node_verify.cpp:80-85 and 113-120: the conditions on a block with predecessor [prev] that concern its VDF *)
  Definition check_block (prev b : block) : bool :=
    ((N.eqb (b_height b) 0) || (1 <=? b_vdf_count b)%nat) &&
    (b_vdf_count b <=? max_vdf_count)%nat &&
    (b_vdf_height b =? b_vdf_height prev + b_vdf_count b)%nat &&
    match sum_iters prev (b_vdf_count b) with
    | Some s => N.eqb (b_vdf_iters b) (w64 (b_vdf_iters prev + s))
    | None => false
    end.

  (** ** Arrival of proofs *)
  (** ProofOfTime.cpp:16-24 and 61-66: hash, content hash and signature as they should be *)
  Variable well_signed : proof -> bool.

  (** Node_verify.cpp:225-250 up to the point where the task is added; and ProofOfTime.cpp:16-24 *)
  Definition verify_vdf (p : proof) : bool :=
    N.eqb (p_version p) 0 && negb (N.eqb (p_vdf_height p) 0) && negb (N.eqb (p_num_iters p) 0) &&
    negb (length (p_segments p) =? 0)%nat && well_signed p &&
    match get_header (p_prev p) with
    | None => false
    | Some prev =>
      match iters_after prev with
      | None => false
      | Some n =>
        N.eqb (p_num_iters p) n && N.eqb (p_segment_size p) vdf_segment_size &&
        N.eqb (N.of_nat (length (p_segments p)) * p_segment_size p) n
      end
    end.
  (** Node_verify.cpp:431-441 *)
  Definition point_of (p : proof) (recv : N) : point :=
    mk_point (p_vdf_height p) (p_start p) (p_num_iters p) (p_input p) (get_output p) (p_prev p) (p_reward p) recv.
  (** Node_verify.cpp:366-369 *)
  Definition add_point (nd : node) (q : point) : node := mk_node (tree nd ++ [q]) (index nd ++ [q]).

  (** What happens to the points: a proof is taken from the queue and verified on some schedule (Node_update.cpp:61-98, Node_verify.cpp:411-445), or blocks become final.
      When a proof is tried, how long it waits and in which order (Node_update.cpp:70-98) is up to the event list. *)
  Inductive event :=
  | EvProof (p : proof) (recv : N) (pa : path) (sched : list nat)
  | EvFinal (vdf_iters : N).

  Definition step (nd : node) (e : event) : node :=
    match e with
    | EvProof p recv pa sched =>
      match find_vdf_point nd (p_input p) (get_output p) with
      | Some _ => nd                                       (** Node_update.cpp:68-70 *)
      | None =>
        if verify_vdf p then
          match verify_vdf_cpu pa sched p with
          | Some true => add_point nd (point_of p recv)
          | _ => nd
          end
        else nd
      end
    | EvFinal k =>                                          (** Node.cpp:953-960 *)
      let gone := filter (fun q => N.leb (v_end q) k) (index nd) in
      mk_node (filter (fun q => negb (existsb (fun g => N.eqb (v_output g) (v_output q)) gone)) (tree nd))
              (filter (fun q => negb (N.leb (v_end q) k)) (index nd))
    end.
  Definition run (l : list event) : node := fold_left step l (mk_node [] []).

  (** ** The points after a block *)
  (** Node.cpp:1666-1667: fork_map: the point with this output, [Some None]: the block itself *)
  Definition fmap := list (N * option point).
  Definition lookup (x : N) (m : fmap) : option (option point) := option_map snd (find (fun e => N.eqb (fst e) x) m).
  (** Node.cpp:1671-1697, [n] rounds left, [i] the offset *)
  Fixpoint extend (nd : node) (b : block) (n i : nat) (iters : N) (m : fmap) (peaks : list point) : option (fmap * list point) :=
    match n with
    | O => Some (m, peaks)
    | S k =>
      match find_infusion b i with
      | None => None                                        (** an exception *)
      | Some (infuse, num) =>
        let iters := w64 (iters + num) in
        let '(m, new_peaks) :=
          fold_left (fun '(m, new) q =>
              if match lookup (v_input q) m with Some _ => true | None => false end && N.eqb (v_prev q) infuse && N.eqb (v_num_iters q) num
              then ((v_output q, Some q) :: m, new ++ [q]) else (m, new))
            (with_iters iters (index nd)) (m, []) in
        match new_peaks with
        | [] => Some (m, peaks)
        | _ => extend nd b k (i + 1) iters m new_peaks
        end
      end
    end.
  (** Node.cpp:1701-1704: the first to arrive; among those received at one time any may be the first of the sorted list, here the earliest in the list *)
  Fixpoint earliest (q : point) (l : list point) : point :=
    match l with [] => q | x :: l => earliest (if N.ltb (v_recv x) (v_recv q) then x else q) l end.
  (** Node.cpp:1706-1709; [None]: the loop does not end within [rounds] *)
  Fixpoint trace (rounds : nat) (m : fmap) (q : point) (acc : list point) : option (list point) :=
    match rounds with
    | O => None
    | S r =>
      match lookup (v_input q) m with
      | Some (Some x) => trace r m x (q :: acc)
      | _ => Some (q :: acc)
      end
    end.
  (** Node.cpp:1663-1711; [None]: an exception or no end *)
  Definition find_next_vdf_points (rounds : nat) (nd : node) (b : block) : option (list point) :=
    match extend nd b max_vdf_count 0 (b_vdf_iters b) [(b_vdf_output b, None)] [] with
    | None => None
    | Some (_, []) => Some []
    | Some (m, q :: l) => trace rounds m (earliest q l) []
    end.

  (** Node_update.cpp:937-954: the fields of the block made from these points that concern its VDF; [None]: no points *)
  Definition make_block (hash time_diff : N) (prev : block) (points : list point) : option block :=
    match rev points with
    | [] => None
    | q :: _ =>
      Some (mk_block hash (b_hash prev) (b_height prev + 1) (length points) (b_vdf_height prev + length points)
                     (w64 (b_vdf_iters prev + fold_left N.add (map v_num_iters points) 0%N)) (v_output q) time_diff)
    end.
End VDF.
