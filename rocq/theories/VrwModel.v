(** The reward of the timelords: points of the VDF in blocks, who is paid and when.  Hashes and addresses are numbers, compared as such (include/mmx/bytes_t.hpp:184-191 compares bytes). *)
Require Import List Arith NArith Bool.
Import ListNotations.
Open Scope N_scope.

(** interface/BlockHeader.vni, the fields used here *)
Record header := mk_header { h_prev : N; h_height : N; h_count : N; h_output : N; h_addrs : list N; h_proof : N; h_payout : option N }.
(** interface/VDF_Point.vni *)
Record point := mk_point { p_input : N; p_output : N; p_infuse : N; p_iters : N; p_addr : N }.
(** ++ on uint32_t *)
Definition inc (n : N) : N := (n + 1) mod 2 ^ 32.

(** std::map<addr_t, uint32_t>, win_map[addr]++ *)
Fixpoint bump (a : N) (m : list (N * N)) : list (N * N) :=
  match m with
  | [] => [(a, inc 0)]
  | (b, n) :: r => if a =? b then (b, inc n) :: r else if a <? b then (a, inc 0) :: m else (b, n) :: bump a r
  end.

Section NODE.
  Variables (find : N -> option header)          (* blocks by hash, src/Node.cpp find_prev *)
    (hash2 : N -> N -> N)                        (* hash_t(address + proof_hash) *)
    (infusion : N -> N -> option (N * N))        (* src/Node.cpp find_infusion: block and offset to infused hash and number of iterations *)
    (interval reward : N).                       (* params->vdf_reward_interval, params->vdf_reward *)

  (** src/Node.cpp:1803-1812, the loop over the blocks before *)
  Fixpoint collect (n : nat) (b : header) (m : list (N * N)) : list (N * N) * header :=
    match n with
    | O => (m, b)
    | S n => match find (h_prev b) with
             | Some p => collect n p (fold_left (fun m a => bump a m) (h_addrs p) m)
             | None => (m, b)
             end
    end.
  (** src/Node.cpp:1817-1826, one entry of win_map; out, max_count, max_hash *)
  Definition pick (proof : N) (x : option N * N * N) (e : N * N) : option N * N * N :=
    let '(out, max_count, max_hash) := x in
    let '(a, n) := e in
    let h := hash2 a proof in
    if (max_count <? n) || ((n =? max_count) && (h <? max_hash)) then (Some a, n, h) else x.
  (** src/Node.cpp:1800-1828 get_vdf_reward_winner *)
  Definition winner (b : header) : option N :=
    let '(m, b) := collect (N.to_nat interval) b [] in
    fst (fst (fold_left (pick (h_proof b)) m (None, 0, 0))).

  (** src/Node_validate.cpp:195-205 in validate *)
  Definition payout_ok (b : header) : bool :=
    if h_height b mod interval =? 0 then match h_payout b, winner b with Some x, Some y => x =? y | None, None => true | _, _ => false end
    else match h_payout b with Some _ => false | None => true end.
  (** src/BlockHeader.cpp:15-34 is_valid, as to the VDF; vdf_count is uint32_t, vdf_reward_addr.size() is not *)
  Definition static_ok (b : header) : bool := ((h_height b =? 0) || (1 <=? h_count b)) && (h_count b =? N.of_nat (length (h_addrs b))).
  (** src/Block.cpp:99-108 get_outputs: amount and address of the output of type VDF_REWARD *)
  Definition vdf_outputs (b : header) : list (N * N) := match h_payout b with Some a => [(a, reward)] | None => [] end.

  (** src/Node.cpp:1628-1656: from the last point of the block to the first; [tree]: vdf_tree, in its order; [n]: points still to be found *)
  Fixpoint back (tree : list point) (prev : N) (n : nat) (output : N) (out : list point) : option (N * list point) :=
    match n with
    | O => Some (output, out)
    | S n => match infusion prev (N.of_nat n) with
             | None => None
             | Some (infuse, iters) =>
               match List.find (fun p => (p_output p =? output) && (p_infuse p =? infuse) && (p_iters p =? iters)) tree with
               | Some p => back tree prev n (p_input p) (p :: out)
               | None => None
               end
             end
    end.
  (** src/Node.cpp:1620-1662 find_vdf_points; [p :: out] instead of the reverse at the end; an empty result means that the points were not found *)
  Definition find_vdf_points (tree : list point) (b : header) : list point :=
    match find (h_prev b) with
    | None => []
    | Some prev => match back tree (h_prev b) (N.to_nat (h_count b)) (h_output b) [] with
                   | Some (output, out) => if output =? h_output prev then out else []
                   | None => []
                   end
    end.
  (** src/Node_update.cpp:224-228 (verify_block_proofs of a synced node: is_vdf_verified), with the checks above *)
  Definition accepted (tree : list point) (b : header) : bool :=
    match find_vdf_points tree b with [] => false | _ => true end && static_ok b && payout_ok b.

  (** src/Node_update.cpp:939-966 make_block *)
  Definition make_block (prev_hash : N) (prev : header) (points : list point) (proof : N) : header :=
    let b := mk_header prev_hash (h_height prev + 1) (N.of_nat (length points)) (p_output (last points (mk_point 0 0 0 0 0))) (map p_addr points) proof None in
    if h_height b mod interval =? 0 then mk_header (h_prev b) (h_height b) (h_count b) (h_output b) (h_addrs b) (h_proof b) (winner b) else b.
End NODE.
