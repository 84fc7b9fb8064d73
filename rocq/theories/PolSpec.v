(** C115, in terms of what the pool, the farmer and the plot NFT say *)
Require Import List NArith Bool.
From Verif Require Import BytesLib EngineModel CtrModel PolModel.
Import ListNotations.
Open Scope N_scope.

(** fields of the sizes that their types have *)
Definition sized (n : nat) (b : bytes) : Prop := List.length b = n /\ bytes_ok b.
Definition proof_fits (p : proof) : Prop :=
  sized 32 (p_plot_id p) /\ sized 32 (p_challenge p) /\ sized 33 (p_farmer_key p) /\ sized 32 (p_seed p) /\ match p_contract p with Some c => sized 32 c | None => True end.
Definition fits (m : partial) : Prop :=
  sized 32 (m_contract m) /\ sized 32 (m_account m) /\ match m_proof m with Some p => proof_fits p | None => True end.

(** What a proof says to the pool: all of it when the plot was made for a contract. *)
Definition same_proof (p q : proof) : Prop :=
  match p_contract p with
  | Some _ => p = q
  | None => p_contract q = None /\ p_score p = p_score q /\ p_plot_id p = p_plot_id q /\ p_challenge p = p_challenge q /\ p_difficulty p = p_difficulty q /\ p_farmer_key p = p_farmer_key q
  end.

(** When a plot NFT pays to its target at a height, by plot_nft.js *)
Definition locked (v : PlotNft.vars) (h : N) : Prop := match PlotNft.unlock_height v with None => True | Some u => h < u end.
(** whom the plot NFT names when no farmer is given *)
Definition names (v : PlotNft.vars) (h : N) (t : addr) : Prop := (locked v h /\ PlotNft.target v = Some t) \/ (~ locked v h /\ PlotNft.owner v = t).
(** The first height at which an owner that asks for it right away, at height [h], may have unlocked the plot NFT *)
Definition held_until (v : PlotNft.vars) (h : N) : N := match PlotNft.unlock_height v with None => h + 256 | Some u => u end.
