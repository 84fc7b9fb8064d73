(** Proofs of space: how a node checks them (src/pos/verify.cpp, src/pos/verify_full.cpp, src/Node_verify.cpp) and how a harvester finds them (src/pos/Prover.cpp, src/Harvester.cpp).
    Hashes, keys and addresses are numbers: for a hash the number whose little-endian bytes it is, so that to_uint256() is the number itself, the first four bytes are it modulo 2^32
    and the first byte is it modulo 256.  The hash functions are parameters.  The CUDA and remote implementations of [compute] are left out. *)
Require Import List Arith NArith ZArith Bool.
Import ListNotations.
Open Scope N_scope.

(** include/mmx/pos/config.h:18-20 *)
Definition N_META : nat := 14.
Definition N_META_OUT : nat := 12.
Definition N_TABLE : nat := 9.
Definition meta := list N.                    (** std::array<uint32_t, N_META>, or its first N_META_OUT words *)

(** ChainParams, the fields used here *)
Record params := mk_params { min_ksize : N; max_ksize : N; plot_filter : N; post_filter : N; space_diff_constant : N; hardfork1_height : N }.

(** The hash functions, by what is hashed.  [o_f1 id x]: the 16 words of the memory hash of verify.cpp:58-73; [o_f2 ws]: SHA-512 of those words (verify_full.cpp:71-81);
    [o_proof c xs]: utils.h:212-220; [o_idog], [o_idnft]: ProofOfSpaceOG.cpp:49, ProofOfSpaceNFT.cpp:50; [o_response]: ProofResponse.cpp:23-37 (of the VDF height and the proof). *)
Record proof := mk_proof { pf_contract : option N; pf_score : N; pf_plot_id : N; pf_challenge : N; pf_difficulty : N; pf_farmer_key : N; pf_ksize : N; pf_seed : N; pf_xs : list N }.
Record oracle := mk_oracle {
  o_f1 : N -> N -> list N; o_f2 : list N -> list N;
  o_filter : N -> N -> N; o_plot : N -> N -> N; o_quality : N -> meta -> N; o_post : N -> meta -> N; o_proof : N -> list N -> N;
  o_idog : N -> N -> N -> N; o_idnft : N -> N -> N -> N -> N; o_response : N -> proof -> N }.

(** verify.cpp:50, verify_full.cpp:26 *)
Definition kmask (k : N) : N := 2 ^ k - 1.
(** verify.cpp:75-81, verify_full.cpp:82-88: value and meta data from the words of a hash *)
Definition outputs (k : N) (ws : list N) : N * meta :=
  let ws := firstn N_META ws in
  (N.land (fold_left N.lxor ws 0) (kmask k), map (fun w => N.land w (kmask k)) ws).

(** the comparison of arrays (lexicographic) *)
Fixpoint meta_lt (a b : meta) : bool :=
  match a, b with
  | x :: a', y :: b' => if x <? y then true else if y <? x then false else meta_lt a' b'
  | [], _ :: _ => true
  | _, [] => false
  end.
Fixpoint meta_eq (a b : meta) : bool :=
  match a, b with
  | x :: a', y :: b' => (x =? y) && meta_eq a' b'
  | [], [] => true
  | _, _ => false
  end.
(** an entry of a table: its value and its position in the list of meta data *)
Definition entry := (N * nat)%type.
(** verify_full.cpp:38-44 *)
Definition sort_func (M : list meta) (l r : entry) : bool :=
  if fst l =? fst r then meta_lt (nth (snd l) M []) (nth (snd r) M []) else fst l <? fst r.

(** verify_full.cpp:61-100: the loop over y, for the entry [yl, pl] *)
Fixpoint partners (yl : N) (pl : nat) (rest : list entry) : list (nat * nat) :=
  match rest with
  | [] => []
  | (yr, pr) :: r =>
    if yr =? (yl + 1) mod 2 ^ 32 then (pl, pr) :: partners yl pl r
    else if yl <? yr then [] else partners yl pl r
  end.
(** verify_full.cpp:57-101: the loop over x; what goes into LR_tmp *)
Fixpoint matches (es : list entry) : list (nat * nat) :=
  match es with
  | [] => []
  | (yl, pl) :: r => partners yl pl r ++ matches r
  end.

Section Verify.
  Variable Or : oracle.
  (** std::sort with [sort_func] on the given meta data: it may order entries that compare equal in any way *)
  Variable srt : list meta -> list entry -> list entry.
  (** the order in which the threads of [compute] append their entries (verify.cpp:180-196) *)
  Variable arrange : list N -> list N.

  Definition f1 (k id x : N) : N * meta := outputs k (o_f1 Or id x).
  Definition f2 (k : N) (l r : meta) : N * meta := outputs k (o_f2 Or (l ++ r)).

  (** the values paired with their positions (verify_full.cpp:33-35,90) *)
  Definition indexed (ys : list N) : list entry := combine ys (seq 0 (length ys)).

  (** verify_full.cpp:46-110, one round: values and meta data of a table to those of the next, with LR_tmp; [None]: zero matches *)
  Definition next_table (k : N) (ys : list N) (M : list meta) : option (list N * list meta * list (nat * nat)) :=
    match matches (srt M (indexed ys)) with
    | [] => None
    | LR => let out := map (fun p => f2 k (nth (fst p) M []) (nth (snd p) M [])) LR in Some (map fst out, map snd out, LR)
    end.
  (** the loop over t; the LR tables with the last one first *)
  Fixpoint tables (n : nat) (k : N) (ys : list N) (M : list meta) (lrs : list (list (nat * nat))) : option (list N * list meta * list (list (nat * nat))) :=
    match n with
    | O => Some (ys, M, lrs)
    | S n' => match next_table k ys M with None => None | Some (ys', M', lr) => tables n' k ys' M' (lr :: lrs) end
    end.
  (** verify_full.cpp:129-140 *)
  Definition expand (lrs : list (list (nat * nat))) (i : nat) : list nat :=
    fold_left (fun is lr => flat_map (fun i => let p := nth i lr (O, O) in [fst p; snd p]) is) lrs [i].
  (** verify_full.cpp:117-145: [seen] is M_set; results and X_out *)
  Fixpoint collect (X : list N) (M : list meta) (lrs : list (list (nat * nat))) (seen : list meta) (es : list entry) : list (N * meta) * list N :=
    match es with
    | [] => ([], [])
    | (y, i) :: r =>
      let m := nth i M [] in
      if existsb (meta_eq m) seen then collect X M lrs seen r
      else let '(out, xs) := collect X M lrs (m :: seen) r in
           ((y, firstn N_META_OUT m) :: out, map (fun j => nth j X 0) (expand lrs i) ++ xs)
    end.
  (** verify_full.cpp:16-147 with X_out given; [None]: exception *)
  Definition compute_full (k : N) (X Y : list N) (M : list meta) : option (list (N * meta) * list N) :=
    match tables (N_TABLE - 1) k Y M [] with
    | None => None
    | Some (ys, M', lrs) => Some (collect X M' lrs [] (srt M' (indexed ys)))
    end.

  (** std::set<uint32_t>: sorted, without duplicates *)
  Fixpoint set_insert (x : N) (l : list N) : list N :=
    match l with
    | [] => [x]
    | y :: r => if x <? y then x :: l else if y <? x then y :: set_insert x r else l
    end.
  Definition to_set (l : list N) : list N := fold_left (fun s x => set_insert x s) l [].
  (** verify.cpp:54-56: the starting values that belong to a stored one *)
  Definition candidates (xbits X : N) : list N := map (fun i => N.lor ((X * 2 ^ xbits) mod 2 ^ 32) (N.of_nat i)) (seq 0 (N.to_nat (2 ^ xbits))).
  (** verify.cpp:92-200, computing on the CPU; the loop over x_i does not end if xbits = 32, which is left out; [None]: exception.
      With fewer than 5 xbits one thread works in order. *)
  Definition compute (xs : list N) (id k xbits : N) : option (list (N * meta) * list N) :=
    if (k <? 8) || (32 <? k) || (k <? xbits) then None
    else
      let X0 := flat_map (candidates xbits) (to_set xs) in
      let X := if 5 <=? xbits then arrange X0 else X0 in
      let out := map (f1 k id) X in
      compute_full k X (map fst out) (map snd out).

  (** verify.cpp:208-213 *)
  Definition check_post_filter (challenge : N) (m : meta) (pf : N) : bool := N.shiftr (o_post Or challenge m) (256 - pf) =? 0.
  (** Prover.cpp:35-37, verify.cpp:232-234 *)
  Definition first_y (challenge k : N) : N := N.land (challenge mod 2 ^ 32) (kmask k).
  Fixpoint same_list (a b : list N) : bool :=
    match a, b with [], [] => true | x :: a', y :: b' => (x =? y) && same_list a' b' | _, _ => false end.
  (** verify.cpp:215-253: the quality; [None]: exception *)
  Definition verify (xs : list N) (challenge id : N) (plot_filter post_filter k : N) (hard_fork : bool) : option N :=
    if negb (length xs =? 2 ^ (N_TABLE - 1))%nat then None
    else match compute xs id k 0 with
    | Some ([(y, m)], xo) =>
      let y0 := first_y challenge k in
      if (y <? y0) || (y0 + 2 ^ plot_filter <=? y) then None
      else if negb (same_list xo xs) then None
      else if hard_fork then (if check_post_filter challenge m post_filter then Some (o_proof Or challenge xo) else None)
      else Some (o_quality Or challenge m)
    | _ => None
    end.

  (** utils.h:109-114 *)
  Definition check_plot_filter (P : params) (challenge plot_id : N) : bool := N.shiftr (o_filter Or plot_id challenge) (256 - plot_filter P) =? 0.
  (** utils.h:182-197 *)
  Definition check_proof_threshold (P : params) (k quality space_diff : N) (hard_fork : bool) : bool :=
    if space_diff =? 0 then false
    else
      let threshold := (2 ^ 255 / ((space_diff * space_diff_constant P) mod 2 ^ 128) * (2 * k + 1)) mod 2 ^ 256 in
      let value := if hard_fork then N.shiftr quality (post_filter P) else quality in
      N.shiftr value (k - 1) <? threshold.
  (** utils.h:199-203 *)
  Definition get_proof_score (h : N) : N := h mod 256.

  (** ProofOfSpaceOG.cpp:15-18,47-54, ProofOfSpaceNFT.cpp:15-18,48-55 *)
  Definition proof_is_valid (p : proof) : bool := (0 <? pf_ksize p) && (length (pf_xs p) <=? 256)%nat.
  Definition proof_validate (p : proof) : bool :=
    match pf_contract p with
    | None => o_idog Or (pf_ksize p) (pf_seed p) (pf_farmer_key p)
    | Some c => o_idnft Or (pf_ksize p) (pf_seed p) (pf_farmer_key p) c
    end =? pf_plot_id p.
  (** Node_verify.cpp:182-202 *)
  Definition verify_proof_impl (P : params) (p : proof) (challenge space_diff vdf_height : N) : bool :=
    if (pf_ksize p <? min_ksize P) || (max_ksize P <? pf_ksize p) then false
    else
      let hard_fork := hardfork1_height P <=? vdf_height in
      match verify (pf_xs p) (o_plot Or (pf_plot_id p) challenge) (pf_plot_id p) (plot_filter P) (post_filter P) (pf_ksize p) hard_fork with
      | None => false
      | Some quality => check_proof_threshold P (pf_ksize p) quality space_diff hard_fork
      end.
  (** Node_verify.cpp:204-237: whether it returns without exception *)
  Definition verify_proof (P : params) (p : proof) (challenge space_diff vdf_height : N) : bool :=
    (0 <? space_diff) && proof_is_valid p && (pf_challenge p =? challenge) && (pf_difficulty p =? space_diff) && proof_validate p
    && check_plot_filter P challenge (pf_plot_id p)
    && verify_proof_impl P p challenge space_diff vdf_height
    && (get_proof_score (o_proof Or (pf_challenge p) (pf_xs p)) =? pf_score p).

  (** ProofResponse, without the fields that are not used here; [r_name] is the length of the name of the harvester *)
  Record response := mk_response { r_vdf_height : N; r_proof : proof; r_name : N; r_hash : N; r_sig : N }.
  (** [sign sk hash], [sig_ok key hash sig]: signature_t::sign and verify *)
  Variable sign : N -> N -> N.
  Variable sig_ok : N -> N -> N -> bool.
  (** ProofResponse.cpp:14-21.  The content hash, which follows from hash and signature, is left out. *)
  Definition response_is_valid (v : response) : bool :=
    proof_is_valid (r_proof v) && (r_name v <? 1024) && (r_hash v =? o_response Or (r_vdf_height v) (r_proof v)).
  (** ProofResponse.cpp:44-54; Node_verify.cpp:52-72: [root]: the VDF height of the root; [found]: what find_challenge returns for the VDF height (ChallengeModel.v) *)
  Definition verify_response (P : params) (root : N) (found : option (N * N)) (v : response) : bool :=
    response_is_valid v
    && proof_validate (r_proof v) && sig_ok (pf_farmer_key (r_proof v)) (r_hash v) (r_sig v)
    && (root <? r_vdf_height v)
    && match found with None => false | Some (challenge, space_diff) => verify_proof P (r_proof v) challenge space_diff (r_vdf_height v) end.

  (** ** The harvester *)

  (** interface/PlotHeader.vni, the fields used here *)
  Record header := mk_header { h_ksize : N; h_xbits : N; h_has_meta : bool; h_seed : N; h_plot_id : N; h_farmer_key : N; h_contract : option N; h_park_size_y : N; h_num_entries_y : N }.
  (** A plot file: the header; the first value and the differences of each park of values ([None]: cannot be read or decoded; encoding.cpp is in PosModel.v);
      the stored meta data of an entry; the values that its pointers lead to (Prover.cpp:165-229, line points are in PosModel.v) *)
  Record plot := mk_plot { p_header : header; p_head : N -> option N; p_deltas : N -> option (list N); p_meta : N -> option meta; p_xs : N -> option (list N) }.

  (** Prover.cpp:93-101 *)
  Fixpoint undelta (y : N) (ds : list N) : list N :=
    match ds with [] => [] | d :: r => let y' := (y + d) mod 2 ^ 32 in y' :: undelta y' r end.
  Definition y_list (head : N) (ds : list N) : list N := head :: undelta head ds.
  (** Prover.cpp:102-119: positions in the window, and whether the end was seen; [i] is the index of the first of [ys] *)
  Fixpoint pick (y_begin y_end num : N) (i : N) (ys : list N) : list N * bool :=
    match ys with
    | [] => ([], false)
    | y :: r =>
      if y_end <=? y then ([], true)
      else let '(out, e) := pick y_begin y_end num (i + 1) r in
           (if (y_begin <=? y) && (i <? num) then i :: out else out, e)
    end.
  Definition cdivN (a b : N) : N := (a + b - 1) / b.
  (** Prover.cpp:57-124: the search, with [n] rounds left before it gives up; [None]: exception.  Park numbers are 32-bit signed; the numbers of parks of a plot fit. *)
  Fixpoint search (n : nat) (pl : plot) (y_begin y_end : N) (parks : N) (have_begin : bool) (park : Z) : option (list N) :=
    if (park <? 0)%Z || (Z.of_N parks <=? park)%Z then Some []
    else match n with
    | O => None
    | S n' =>
      match p_head pl (Z.to_N park) with
      | None => None
      | Some y =>
        if y_end <=? y then
          if have_begin || (park =? 0)%Z then Some []
          else search n' pl y_begin y_end parks false (Z.max (park - Z.of_N (cdivN (y - y_begin) (h_park_size_y (p_header pl))) - 1) 0)
        else match p_deltas pl (Z.to_N park) with
        | None => None
        | Some ds =>
          let '(out, is_end) := pick y_begin y_end (h_num_entries_y (p_header pl)) (Z.to_N park * h_park_size_y (p_header pl)) (y_list y ds) in
          if is_end then Some out
          else match search n' pl y_begin y_end parks true (park + 1) with None => None | Some more => Some (out ++ more) end
        end
      end
    end.
  (** Prover.h:32 *)
  Definition initial_y_shift : Z := (-1024 * 24)%Z.
  (** Prover.cpp:47-52: where the search begins *)
  Definition first_park (h : header) (y_begin : N) : Z :=
    let parks := cdivN (h_num_entries_y h) (h_park_size_y h) in
    let try := Z.to_N (Z.max (Z.of_N y_begin + initial_y_shift) 0) in
    let guess := (N.shiftr ((try / 2 * h_num_entries_y h) mod 2 ^ 64) (h_ksize h - 1)) / h_park_size_y h in
    Z.min (Z.of_N guess) (Z.of_N parks - 1).
  (** Prover.cpp:29-125 *)
  Definition find_entries (pl : plot) (challenge plot_filter : N) : option (list N) :=
    let h := p_header pl in
    let y_begin := first_y challenge (h_ksize h) in
    search 101 pl y_begin (y_begin + 2 ^ plot_filter) (cdivN (h_num_entries_y h) (h_park_size_y h)) false (first_park h y_begin).

  (** Prover.cpp:165-250: proof and meta data of an entry; [None]: exception *)
  Definition get_full_proof (pl : plot) (index : N) : option (list N * meta) :=
    match p_xs pl index with
    | None => None
    | Some xs =>
      match compute xs (h_plot_id (p_header pl)) (h_ksize (p_header pl)) (h_ksize (p_header pl) - h_xbits (p_header pl)) with
      | Some ([(_, m)], xo) => Some (xo, m)
      | _ => None
      end
    end.
  (** proof_data_t (Prover.h:19-26); invalid ones are [None] in the list below *)
  Record quality_t := mk_quality { q_index : N; q_proof : list N; q_meta : meta }.
  Fixpoint sequence {A} (l : list (option A)) : option (list A) :=
    match l with [] => Some [] | None :: _ => None | Some a :: r => match sequence r with None => None | Some r' => Some (a :: r') end end.
  (** Prover.cpp:29-163 *)
  Definition get_qualities (pl : plot) (challenge plot_filter : N) : option (list (option quality_t)) :=
    match find_entries pl challenge plot_filter with
    | None => None
    | Some is =>
      if h_has_meta (p_header pl) then
        sequence (map (fun i => match p_meta pl i with None => None | Some m => Some (Some (mk_quality i [] m)) end) is)
      else
        Some (map (fun i => match get_full_proof pl i with None => None | Some (xs, m) => Some (mk_quality i xs m) end) is)
    end.

  (** interface/Challenge.vni *)
  Record challenge_t := mk_challenge { c_vdf_height : N; c_challenge : N; c_difficulty : N }.
  Definition make_proof (h : header) (c : challenge_t) (contract : option N) (difficulty : N) (xs : list N) : proof :=
    mk_proof contract (get_proof_score (o_proof Or (c_challenge c) xs)) (h_plot_id h) (c_challenge c) difficulty (h_farmer_key h) (h_ksize h) (h_seed h) xs.
  (** Harvester.cpp:221-312: one quality; the proofs for the pool and for the chain; an exception gives none of them.
      [pool]: the difficulty set for the contract of the plot, if it has a pool (Harvester.cpp:178-189,211-217) *)
  Definition try_quality (P : params) (pl : plot) (c : challenge_t) (pool : option N) (q : quality_t) : list proof * list proof :=
    let h := p_header pl in
    let hard_fork := hardfork1_height P <=? c_vdf_height c in
    let challenge := o_plot Or (h_plot_id h) (c_challenge c) in
    if hard_fork && negb (check_post_filter challenge (q_meta q) (post_filter P)) then ([], [])
    else
      let fetch := match get_full_proof pl (q_index q) with None => None | Some (xs, _) => Some xs end in
      match (if (length (q_proof q) =? 0)%nat then (if hard_fork then fetch else Some []) else Some (q_proof q)) with
      | None => ([], [])
      | Some xs =>
        let quality := if hard_fork then o_proof Or challenge xs else o_quality Or challenge (q_meta q) in
        let is_solo := check_proof_threshold P (h_ksize h) quality (c_difficulty c) hard_fork in
        let is_partial := match pool with Some d => check_proof_threshold P (h_ksize h) quality d hard_fork | None => false end in
        if is_solo || is_partial then
          match (if (length xs =? 0)%nat then fetch else Some xs) with
          | None => ([], [])
          | Some xs =>
            (match pool with Some d => if is_partial then [make_proof h c (h_contract h) d xs] else [] | None => [] end,
             if is_solo then [make_proof h c (h_contract h) (c_difficulty c) xs] else [])
          end
        else ([], [])
      end.
  (** Harvester.cpp:202-316: the task for one plot: what is published for the pool and for the chain *)
  Definition lookup_plot (P : params) (pl : plot) (c : challenge_t) (pool : option N) : list proof * list proof :=
    let h := p_header pl in
    if check_plot_filter P (c_challenge c) (h_plot_id h) then
      match get_qualities pl (o_plot Or (h_plot_id h) (c_challenge c)) (plot_filter P) with
      | None => ([], [])
      | Some qs =>
        let out := flat_map (fun q => match q with None => [] | Some q => [try_quality P pl c pool q] end) qs in
        (flat_map fst out, flat_map snd out)
      end
    else ([], []).
  (** Harvester.cpp:69-87 (send_response; [name]: the length of my_name, cut to 1024) and Farmer.cpp:249-263: what the farmer publishes; [key_map]: the secret key of a farmer key *)
  Definition send_response (name : N) (c : challenge_t) (p : proof) : response := mk_response (c_vdf_height c) p (N.min name 1024) (o_response Or (c_vdf_height c) p) 0.
  Definition farmer_handle (key_map : N -> option N) (v : response) : option response :=
    if response_is_valid v then
      match key_map (pf_farmer_key (r_proof v)) with
      | None => None
      | Some sk => Some (mk_response (r_vdf_height v) (r_proof v) (r_name v) (r_hash v) (sign sk (r_hash v)))
      end
    else None.
End Verify.
