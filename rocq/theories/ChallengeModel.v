(** The challenges for farming: /repo/src/Node.cpp, /repo/src/Node_verify.cpp and /repo/include/mmx/utils.h.
    Hashes are numbers; the hash function is a parameter, [next c] for hash_t("next_challenge" + c), [before c] for hash_t("prev_challenge" + c), [infuse c p] for
    hash_t("challenge_infusion" + c + p), [draws c p] for check_space_fork (utils.h:117-123).  The numbers of headers do not wrap around (VDF heights are 32 bit). *)
Require Import List Arith NArith Bool.
Import ListNotations.
Open Scope N_scope.

(** BlockHeader: the fields that matter here.  [h_entropy]: what a space fork mixes in: proof_hash, from hardfork2 on proof_chain (utils.h:138). *)
Record header := mk_header {
  h_hash : N; h_prev : N; h_height : N; h_vdf_count : nat; h_vdf_height : nat;
  h_challenge : N; h_space_diff : N; h_space_fork : bool; h_fork_len : N; h_entropy : N }.

Section NODE.
  Variables (next before : N -> N) (infuse : N -> N -> N) (draws : N -> N -> bool).
  (** ChainParams; [max_fork_len]: max_space_fork_len * challenge_interval; [new_diff]: calc_new_space_diff *)
  Variables (challenge_delay max_vdf_count max_history : nat) (max_fork_len hardfork2 : N) (new_diff : header -> N).
  (** Node_api.cpp:211-214 *)
  Variable get_header : N -> option header.

  Fixpoint repeated (f : N -> N) (n : nat) (c : N) : N := match n with O => c | S k => repeated f k (f c) end.   (** the loops around hash_t *)

  (** utils.h:125-151 *)
  Definition calc_next_challenge (prev : header) (count : nat) (entropy : N) : N * bool :=
    let out := repeated next count (h_challenge prev) in
    let is_forced := max_fork_len <? h_fork_len prev + N.of_nat count in
    let is_space_fork := draws out entropy || (is_forced && (hardfork2 <=? h_height prev + 1)) in
    (if is_space_fork then infuse out entropy else out, is_space_fork).

  (** BlockHeader.cpp:17-20 and Node_verify.cpp:74-164, the conditions on a block with predecessor [prev] that concern its challenge *)
  Definition check_header (prev block : header) : bool :=
    ((h_height block =? 0) || (1 <=? h_vdf_count block)%nat) &&
    (h_vdf_count block <=? max_vdf_count)%nat &&
    (h_vdf_height block =? h_vdf_height prev + h_vdf_count block)%nat &&
    let '(challenge, is_space_fork) := calc_next_challenge prev (h_vdf_count block) (h_entropy block) in
    (h_challenge block =? challenge) && Bool.eqb (h_space_fork block) is_space_fork &&
    (if is_space_fork
     then (h_space_diff block =? new_diff prev) && (h_fork_len block =? N.of_nat (h_vdf_count block))
     else (h_space_diff block =? h_space_diff prev) && (h_fork_len block =? h_fork_len prev + N.of_nat (h_vdf_count block))).

  (** Node.cpp:1458-1465 with the default arguments *)
  Definition find_prev (b : header) : option header := get_header (h_prev b).

  (** Node.cpp:1486-1497: the blocks before [iter], the newest first; [None]: return false *)
  Fixpoint ancestors (target : nat) (iter : header) : option (list header) :=
    match target with
    | O => Some []
    | S t =>
      match find_prev iter with
      | Some p => match ancestors t p with Some l => Some (p :: l) | None => None end
      | None => if h_height iter =? 0 then Some [] else None
      end
    end.
  (** Node.cpp:1505-1509: [n] more values, starting after [c] *)
  Fixpoint between (n : nat) (c d : N) : list (N * N) := match n with O => [] | S k => (next c, d) :: between k (next c) d end.
  (** Node.cpp:1501-1513 *)
  Fixpoint challenges (prev : option header) (chain : list header) : list (N * N) :=
    match chain with
    | [] => []
    | b :: rest =>
      (match prev with Some p => between (h_vdf_count b - 1) (h_challenge p) (h_space_diff p) | None => [] end)
      ++ (h_challenge b, h_space_diff b) :: challenges (Some b) rest
    end.
  (** Node.cpp:1516-1520; the list is never empty, [x]: its first element *)
  Fixpoint lookup_padded (target : nat) (x : N * N) (l : list (N * N)) : N * N :=
    match target, l with
    | O, _ => x
    | S t, y :: l => lookup_padded t y l
    | S t, [] => lookup_padded t (before (fst x), snd x) []
    end.
  (** Node.cpp:1467-1525 *)
  Definition find_challenge (block : header) (offset : nat) : option (N * N) :=
    if (challenge_delay <? offset)%nat then
      let advance := (offset - challenge_delay)%nat in
      if (max_vdf_count <? advance)%nat then None
      else Some (repeated next advance (h_challenge block), h_space_diff block)
    else
      let target := (challenge_delay - offset)%nat in
      match ancestors target block with
      | None => None
      | Some chain =>
        match rev (challenges None (rev (block :: chain))) with
        | [] => None
        | x :: list => Some (lookup_padded target x list)
        end
      end.

  (** Node.cpp:1540-1542; as many rounds as the VDF height of the peak allows *)
  Fixpoint walk_back (rounds : nat) (vdf_height : nat) (b : header) : option header :=
    if (vdf_height <? h_vdf_height b)%nat then
      match rounds, find_prev b with S k, Some p => walk_back k vdf_height p | _, _ => None end
    else Some b.
  (** Node.cpp:1527-1547 *)
  Definition find_challenge_at (peak : option header) (vdf_height : nat) : option (N * N) :=
    match peak with
    | None => None
    | Some p =>
      if (if (h_vdf_height p <? vdf_height)%nat then (max_vdf_count <? vdf_height - h_vdf_height p)%nat else (max_history <? h_vdf_height p - vdf_height)%nat)
      then None
      else match walk_back (h_vdf_height p) vdf_height p with
           | None => None
           | Some b => find_challenge b (vdf_height - h_vdf_height b)
           end
    end.
End NODE.
