(** The farmer: what it knows of its harvesters, its report, the statistics of partials, and the signing of blocks and votes (src/Farmer.cpp).  Addresses, keys, hashes, signatures and texts are numbers. *)
Require Import List Arith NArith ZArith Bool.
From Verif Require Import PrsModel.
Import ListNotations.
Open Scope N_scope.

(** std::map operator[] and assignment; a value that is added up in a map, modulo [m] *)
Definition put {V} (c : N) (v : V) (l : list (N * V)) : list (N * V) := (c, v) :: del c l.
Definition cnt (k : N) (l : list (N * N)) : N := match get k l with Some v => v | None => 0 end.
Definition add_to (m k v : N) (l : list (N * N)) : list (N * N) := put k ((cnt k l + v) mod m) l.
Definition u32 : N := 4294967296.
Definition u64 : N := 18446744073709551616.

(** interface/pooling_info_t.vni: [g_rest]: name, server_url, pool_target and is_plot_nft; server_url is also [g_url] *)
Record pool := mk_pool { g_contract : N; g_url : option N; g_rest : N; g_diff : N; g_count : N }.
(** interface/FarmInfo.vni.  Left out: plot_dirs. *)
Record info := mk_info {
  i_id : option N; i_name : option N; i_plots : list (N * N); i_pools : list (N * pool); i_bytes : N; i_eff : N; i_balance : N }.
(** interface/pooling_stats_t.vni.  [s_time], [s_last]: of 64 bits, taken for integers *)
Record stats := mk_stats { s_url : N; s_diff : N; s_valid : N; s_failed : N; s_total : N; s_time : Z; s_last : Z; s_err : list (N * N) }.
Definition no_stats : stats := mk_stats 0 0 0 0 0 0 0 [].
Definition set_url x t := mk_stats x (s_diff t) (s_valid t) (s_failed t) (s_total t) (s_time t) (s_last t) (s_err t).
Definition set_diff x t := mk_stats (s_url t) x (s_valid t) (s_failed t) (s_total t) (s_time t) (s_last t) (s_err t).
Definition set_slast x t := mk_stats (s_url t) (s_diff t) (s_valid t) (s_failed t) (s_total t) (s_time t) x (s_err t).
Definition accepted (points : N) (ms : Z) t := mk_stats (s_url t) (s_diff t) ((s_valid t + points) mod u64) (s_failed t) ((s_total t + 1) mod u32) (s_time t + ms) (s_last t) (s_err t).
Definition refused (code diff : N) t := mk_stats (s_url t) (s_diff t) (s_valid t) ((s_failed t + diff) mod u64) (s_total t) (s_time t) (s_last t) (add_to u32 code 1 (s_err t)).

Record farmer := mk_farmer {
  f_keys : list (N * N);                (* key_map: public key => secret key *)
  f_addr : option N;                    (* reward_addr *)
  f_infos : list (N * (Z * info));      (* info_map: harvester => time received, sample *)
  f_stats : list (N * stats)            (* nft_stats *)
}.

(** src/Farmer.cpp:33-41 (main): the address of the configuration, where 0 stands for none *)
Definition init (conf : option N) : farmer := mk_farmer [] (match conf with Some 0 => None | x => x end) [] [].

(** src/Farmer.cpp:142-150 (update): the keys of the wallet.  std::map::emplace keeps what is there. *)
Definition add_keys (l : list (N * N)) (f : farmer) : farmer :=
  mk_farmer (fold_left (fun m e => match get (snd e) m with Some _ => m | None => (snd e, fst e) :: m end) l (f_keys f)) (f_addr f) (f_infos f) (f_stats f).

(** src/Farmer.cpp:155-171 (update): the first address of the accounts of the wallet, if there is no address yet *)
Definition got_accounts (l : list (option N)) (f : farmer) : farmer :=
  match f_addr f with
  | Some _ => f
  | None => mk_farmer (f_keys f) (match List.find (fun a => match a with Some _ => true | None => false end) l with Some a => a | None => None end) (f_infos f) (f_stats f)
  end.

(** src/Farmer.cpp:177-184 (update): harvesters that are silent for too long; times in us *)
Definition expire (timeout now : Z) (f : farmer) : farmer :=
  mk_farmer (f_keys f) (f_addr f) (filter (fun e => negb (timeout <? Z.quot (now - fst (snd e)) 1000000)%Z) (f_infos f)) (f_stats f).

(** nft_stats[contract] *)
Definition stats_of (c : N) (f : farmer) : stats := match get c (f_stats f) with Some t => t | None => no_stats end.
Definition set_stats (c : N) (t : stats) (f : farmer) : farmer := mk_farmer (f_keys f) (f_addr f) (f_infos f) (put c t (f_stats f)).

Section FARMER.
  Variables (hash_name : N -> N).     (* hash_t(name) *)

  (** src/Farmer.cpp:226-247 handle(FarmInfo).  The query for the difficulty is left out; its answer is an event. An empty url is 0. *)
  Definition key_of_info (v : info) : option N := match i_id v with Some i => Some i | None => option_map hash_name (i_name v) end.
  Definition got_info (now : Z) (v : info) (f : farmer) : farmer :=
    let f := match key_of_info v with Some k => mk_farmer (f_keys f) (f_addr f) (put k (now, v) (f_infos f)) (f_stats f) | None => f end in
    fold_left (fun f e => match g_url (snd e) with
                          | Some u => if u =? 0 then f else if s_url (stats_of (g_contract (snd e)) f) =? u then f else set_stats (g_contract (snd e)) (set_url u (stats_of (g_contract (snd e)) f)) f
                          | None => f
                          end) (i_pools v) f.

  (** src/Farmer.cpp:203-219 query_difficulty: the answer of the pool *)
  Definition got_diff (c d : N) (f : farmer) : farmer := if 0 <? d then set_stats c (set_diff d (stats_of c f)) f else f.

  (** src/Farmer.cpp:283-329 handle(Partial): the answer of the pool, or an error ([None]).  [Bad]: no JSON, or no object.  Points are of type int64, added to an uint64.  Simplified: the conversions do not throw. *)
  Inductive response := Valid (points : Z) (ms : Z) | Invalid (code : N) | Bad.
  Definition SERVER_ERROR : N := 16.
  Definition got_response (now : Z) (c diff : N) (r : option response) (f : farmer) : farmer :=
    let t := stats_of c f in
    set_stats c
      match r with
      | None => refused SERVER_ERROR diff t
      | Some r =>
        let t := set_slast now t in
        match r with
        | Valid p ms => accepted (if (0 <? p)%Z then Z.to_N p else diff) ms t
        | Invalid code => refused (if code =? 0 then SERVER_ERROR else code) diff t
        | Bad => refused SERVER_ERROR diff t
        end
      end f.

  (** src/Farmer.cpp:71-81 get_partial_diff *)
  Definition get_partial_diff (c : N) (f : farmer) : N := s_diff (stats_of c f).

  (** src/Farmer.cpp:103-136 get_farm_info.  Simplified: the harvesters come in the order in which they reported, latest first, instead of that of their hashes. *)
  Record report := mk_report { r_bytes : N; r_eff : N; r_balance : N; r_plots : list (N * N); r_names : list (N * (N * N)); r_pools : list (N * pool); r_stats : list (N * stats); r_addr : option N }.
  Definition add_name (k b e : N) (l : list (N * (N * N))) : list (N * (N * N)) :=
    let '(x, y) := match get k l with Some p => p | None => (0, 0) end in put k ((x + b) mod u64, (y + e) mod u64) l.
  Definition add_pool (k : N) (p : pool) (l : list (N * pool)) : list (N * pool) :=
    let prev := match get k l with Some q => g_count q | None => 0 end in
    put k (mk_pool (g_contract p) (g_url p) (g_rest p) (g_diff p) ((g_count p + prev) mod u32)) l.
  Definition add_info (v : info) (r : report) : report :=
    mk_report ((r_bytes r + i_bytes v) mod u64) ((r_eff r + i_eff v) mod u64) ((r_balance r + i_balance v) mod u64)
      (fold_left (fun m e => add_to u32 (fst e) (snd e) m) (i_plots v) (r_plots r))
      (match i_name v with Some n => add_name n (i_bytes v) (i_eff v) (r_names r) | None => r_names r end)
      (fold_left (fun m e => add_pool (fst e) (snd e) m) (i_pools v) (r_pools r)) (r_stats r) (r_addr r).
  Definition get_farm_info (f : farmer) : report :=
    let r := fold_left (fun r e => add_info (snd (snd e)) r) (f_infos f) (mk_report 0 0 0 [] [] [] [] None) in
    mk_report (r_bytes r) (r_eff r) (r_balance r) (r_plots r) (r_names r)
      (map (fun e => (fst e, mk_pool (g_contract (snd e)) (g_url (snd e)) (g_rest (snd e)) (get_partial_diff (fst e) f) (g_count (snd e)))) (r_pools r)) (f_stats f) (f_addr f).

  (** What can happen; [Expire]: the timer of update *)
  Inductive event := Keys (l : list (N * N)) | Accounts (l : list (option N)) | Expire | Info (v : info) | Diff (c d : N) | Response (c diff : N) (r : option response).
  Definition step (timeout : Z) (f : farmer) (e : Z * event) : farmer :=
    match snd e with
    | Keys l => add_keys l f
    | Accounts l => got_accounts l f
    | Expire => expire timeout (fst e) f
    | Info v => got_info (fst e) v f
    | Diff c d => got_diff c d f
    | Response c d r => got_response (fst e) c d r f
    end.
  Definition run (timeout : Z) (conf : option N) (l : list (Z * event)) : farmer := fold_left (step timeout) l (init conf).
End FARMER.

(** interface/BlockHeader.vni: what the farmer reads or sets; [b_rest]: all other fields that are hashed.  [b_proof]: the farmer keys of the proofs *)
Record core := mk_core { b_proof : list N; b_rest : N; b_amount : N; b_nonce : N; b_addr : option N; b_contract : option N; b_account : option N }.
Record block := mk_block { b_core : core; b_hash : N; b_sig : option N; b_content : N }.

Section SIGN.
  Variables (bhash : core -> N)          (* BlockHeader::calc_hash, src/BlockHeader.cpp:34-89 *)
    (chash : N -> option N -> N)         (* BlockHeader::calc_content_hash, src/BlockHeader.cpp:91-97 *)
    (vhash : N -> N -> N)                (* hash of "MMX/validator/vote/" + hash + farmer_key, src/Farmer.cpp:378 *)
    (sign : N -> N -> N).                (* signature_t::sign *)

  (** src/Farmer.cpp:337-344 get_skey; [None]: an exception *)
  Definition get_skey (f : farmer) (k : N) : option N := get k (f_keys f).

  (** src/Farmer.cpp:346-370 sign_block; [rnd]: vnx::rand64() *)
  Definition sign_block (f : farmer) (rnd : N) (b : block) : option block :=
    match b_proof (b_core b) with
    | [] => None
    | k :: _ =>
      match get_skey f k with
      | None => None
      | Some sk =>
        let c := b_core b in
        let a := match b_addr c with Some a => Some a | None => f_addr f end in
        let acc := match b_contract c with Some _ => f_addr f | None => b_account c end in
        let c' := mk_core (b_proof c) (b_rest c) (b_amount c) rnd a (b_contract c) acc in
        let h := bhash c' in let s := sign sk h in Some (mk_block c' h (Some s) (chash h (Some s)))
      end
    end.

  (** src/Farmer.cpp:372-380 sign_vote *)
  Definition sign_vote (f : farmer) (hash key : N) : option N := match get_skey f key with Some sk => Some (sign sk (vhash hash key)) | None => None end.
End SIGN.
