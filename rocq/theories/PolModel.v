(** Farming with a pool: the partial proofs that a farmer sends, how they are checked, and where the rewards of a plot NFT go.
    /repo/src/Partial.cpp:16-47, src/Farmer.cpp:265-282, src/Harvester.cpp:262-285, src/Node_api.cpp:941-990 and 1514-1589, src/Node_validate.cpp:173-193, src/contract/plot_nft.js *)
Require Import List Arith NArith Bool String Ascii.
From Verif Require Import BytesLib EngineModel CodecModel CtrModel.
Import List ListNotations.
Open Scope N_scope.

Definition txt (s : string) : list N := map N_of_ascii (list_ascii_of_string s).

(** interface/ProofOfSpaceNFT.vni, ProofOfSpaceOG.vni.  [p_contract]: for plots made for a contract (ProofOfSpaceNFT); [None]: ProofOfSpaceOG *)
Record proof := mk_proof { p_score : N; p_plot_id : bytes; p_challenge : bytes; p_difficulty : N; p_farmer_key : bytes;
                           p_ksize : N; p_seed : bytes; p_xs : list N; p_contract : option addr }.
(** interface/Partial.vni; [m_sig]: farmer_sig *)
Record partial := mk_partial { m_vdf_height : N; m_hash : bytes; m_contract : addr; m_account : addr; m_pool_url : list N; m_harvester : list N;
                               m_lookup_ms : N; m_proof : option proof; m_sig : option bytes }.

(** bytes_t::to_string (include/mmx/bytes_t.hpp:163-166): hexadecimal digits *)
Definition hex_digit (x : N) : N := if x <? 10 then 48 + x else 55 + x.
Definition hex (b : bytes) : list N := flat_map (fun x => [hex_digit (x / 16); hex_digit (x mod 16)]) b.

(** Partial.cpp:26-44: what is said about the proof *)
Definition proof_text (p : proof) : list N :=
  txt (match p_contract p with Some _ => "mmx.ProofOfSpaceNFT/" | None => "mmx.ProofOfSpaceOG/" end)
  ++ txt "score:" ++ dec (p_score p) ++ txt "plot_id:" ++ hex (p_plot_id p) ++ txt "challenge:" ++ hex (p_challenge p)
  ++ txt "difficulty:" ++ dec (p_difficulty p) ++ txt "farmer_key:" ++ hex (p_farmer_key p)
  ++ match p_contract p with
     | Some c => txt "ksize:" ++ dec (p_ksize p) ++ txt "seed:" ++ hex (p_seed p) ++ txt "proof_xs:"
                 ++ flat_map (fun x => dec x ++ txt ",") (p_xs p) ++ txt "contract:" ++ addr_to_string c
     | None => []
     end.
(** Partial.cpp:16-46: calc_hash, the text that is hashed *)
Definition text (m : partial) : list N :=
  txt "mmx.Partial/" ++ txt "vdf_height:" ++ dec (m_vdf_height m) ++ txt "contract:" ++ addr_to_string (m_contract m)
  ++ txt "account:" ++ addr_to_string (m_account m) ++ txt "pool_url:" ++ m_pool_url m ++ txt "harvester:" ++ m_harvester m
  ++ txt "lookup_time_ms:" ++ dec (m_lookup_ms m) ++ txt "proof:" ++ match m_proof m with Some p => proof_text p | None => [] end.

(** pooling_error_e *)
Inductive code := NONE | INVALID_PROOF | INVALID_SIGNATURE | CHALLENGE_NOT_CONFIRMED | CHALLENGE_NOT_FOUND | CHALLENGE_REVERTED | INVALID_CONTRACT.

(** Contracts as this part of the node sees them *)
Inductive contract := PlotNFT (v : PlotNft.vars) | OtherContract.

Section NODE.
  (** hash_t, signature_t::verify, Node::find_challenge and Node::verify_proof (C84) *)
  Variable H : list N -> bytes.
  Variable check_sig : bytes -> bytes -> bytes -> bool.   (* key, message, signature *)
  Variable find_challenge : N -> option (bytes * N).
  Variable verify_proof : proof -> bytes -> N -> N -> bool.   (* proof, challenge, difficulty, vdf_height *)
  (** get_contract: the contracts of the chain with their variables; get_height(); get_vdf_height() *)
  Variable contracts : addr -> option contract.
  Variables (height vdf_height : N).
  Variable version : N.

  Definition beq (a b : bytes) : bool := if list_eq_dec N.eq_dec a b then true else false.
  Definition calc_hash (m : partial) : bytes := H (text m).

  (** Node_api.cpp:889-932: call_contract of a plot NFT; what the call sees *)
  Definition call_env (self : addr) : env := mk_env None height None self version.
  (** Node_api.cpp:971-990; [None]: an exception, here when the result is null.  Contracts that are not plot NFTs and have a method of that name are not modelled *)
  Definition get_plot_nft_target (a : addr) (farmer : option addr) : option addr :=
    match contracts a with
    | Some (PlotNFT v) =>
      match PlotNft.mmx_reward_target farmer (call_env a) (begin (call_env a) v (fun _ => 0)) with Some (r, _) => r | None => None end
    | _ => Some a
    end.

  (** Node_api.cpp:1514-1532, behind the check of is_synced *)
  Definition verify_plot_nft_target (a pool_target : addr) : code :=
    match contracts a with
    | Some (PlotNFT _) =>
      match get_plot_nft_target a None with
      | Some t => if addr_eqb t pool_target then NONE else INVALID_CONTRACT
      | None => INVALID_CONTRACT
      end
    | _ => INVALID_CONTRACT
    end.

  (** Node_api.cpp:1534-1589, behind the checks of is_synced and for null *)
  Definition verify_partial (m : partial) (pool_target : option addr) : code :=
    match m_proof m with
    | None => INVALID_PROOF
    | Some p =>
      if negb (beq (m_hash m) (calc_hash m)) then INVALID_SIGNATURE
      else match m_sig m with
      | None => INVALID_SIGNATURE
      | Some s =>
        if negb (check_sig (p_farmer_key p) (m_hash m) s) then INVALID_SIGNATURE
        else if vdf_height <? m_vdf_height m then CHALLENGE_NOT_CONFIRMED
        else match find_challenge (m_vdf_height m) with
        | None => CHALLENGE_NOT_FOUND
        | Some (challenge, _) =>
          if negb (beq (p_challenge p) challenge) then CHALLENGE_REVERTED
          else if negb (verify_proof p challenge (p_difficulty p) (m_vdf_height m)) then INVALID_PROOF
          else match pool_target with
          | None => NONE
          | Some t =>
            match p_contract p with
            | Some c => if negb (addr_eqb (m_contract m) c) then INVALID_CONTRACT else verify_plot_nft_target c t
            | None => INVALID_CONTRACT
            end
          end
        end
      end
    end.

  (** interface/plot_nft_info_t.vni, Node_api.cpp:941-969; unlock_height is cut to 32 bits.  (is_locked, unlock_height, target) *)
  Definition get_plot_nft_info (a : addr) : option (bool * option N * option addr) :=
    match contracts a with
    | Some (PlotNFT v) =>
      let unlock := match PlotNft.unlock_height v with Some u => Some (u mod 2 ^ 32) | None => None end in
      let locked := match unlock with Some u => height <? u | None => true end in
      Some (locked, unlock, if locked then PlotNft.target v else None)
    | _ => None
    end.

  (** Node_validate.cpp:173-193: the reward address of a block with this proof is accepted; [reward_account]: chosen by the farmer *)
  Definition reward_ok (p : proof) (reward_addr reward_contract reward_account : option addr) : bool :=
    let expect := match reward_addr with Some _ => p_contract p | None => None end in
    match reward_contract, expect with
    | None, None => true
    | Some c, Some c' =>
      addr_eqb c c' &&
      match get_plot_nft_target c reward_account, reward_addr with
      | Some t, Some a => addr_eqb a t
      | _, _ => false
      end
    | _, _ => false
    end.

  (** Harvester.cpp:262-285: the partial for a proof found in a plot made for the contract [c]; [owner], [url]: of the plot NFT (185) *)
  Definition harvest (vdf_height : N) (c owner : addr) (url name : list N) (time_ms : N) (p : proof) : partial :=
    mk_partial vdf_height [] c owner url name time_ms (Some p) None.
  (** Farmer.cpp:265-282: the farmer completes and signs it.  [keys]: key_map, [sign]: signature_t::sign; [None]: an exception *)
  Definition farmer_signs (keys : bytes -> option bytes) (sign : bytes -> bytes -> bytes) (reward_addr : option addr) (m : partial) : option partial :=
    match m_proof m with
    | None => None
    | Some p =>
      let account := match reward_addr with Some a => a | None => m_account m end in
      let out := mk_partial (m_vdf_height m) (m_hash m) (m_contract m) account (m_pool_url m) (m_harvester m) (m_lookup_ms m) (m_proof m) (m_sig m) in
      let h := calc_hash out in
      match keys (p_farmer_key p) with
      | None => None
      | Some sk => Some (mk_partial (m_vdf_height m) h (m_contract m) account (m_pool_url m) (m_harvester m) (m_lookup_ms m) (m_proof m) (Some (sign sk h)))
      end
    end.
End NODE.
