(** Independent specification of reward voting and of difficulty updates. *)
Require Import List ZArith NArith.
From Verif Require Import ChainModel.
Import ListNotations.
Open Scope Z_scope.

(** [votes] are the reward votes of the blocks at heights 1, 2, 3, ... *)
Definition vote_at (votes : list Z) (h : nat) : Z :=
  match h with O => 0 | S i => nth i votes 0 end.

Definition zsum (l : list Z) : Z := fold_right Z.add 0 l.

(** The votes cast in the [i] blocks before height [h]: heights h-i .. h-1. *)
Definition window (votes : list Z) (i h : nat) : list Z := map (vote_at votes) (seq (h - i) i).

Definition voters (l : list Z) : Z := Z.of_nat (length (filter (fun v => negb (v =? 0)) l)).

Definition valid_votes (votes : list Z) : Prop := Forall (fun v => -1 <= v <= 1) votes.

(** One adjustment step: 1/div of the current reward, but at least [tick]. *)
Definition adjust_step (div tick b : Z) : Z := Z.max (b / div) tick.

(** What the base reward must become at an adjustment height, given the votes of the interval before it. *)
Definition adjusted (div tick : Z) (interval : Z) (ballot : list Z) (b : Z) : Z :=
  if voters ballot <? interval / 2 then b
  else match zsum ballot ?= 0 with
       | Gt => Z.min (b + adjust_step div tick b) 4200000000000
       | Lt => Z.max (b - adjust_step div tick b) 0
       | Eq => b
       end.

(** Parameters under which the 32-bit counters of the space fork cannot wrap; mainnet satisfies them. *)
Definition sane_space_params (p : params) : Prop :=
  (1 <= p_avg_proof_count p /\ 1 <= p_challenge_interval p /\ p_max_proof_count p < 2 ^ 15 /\
   p_challenge_interval p * 100 * p_avg_proof_count p < 2 ^ 32 /\
   p_challenge_interval p * 100 * p_max_proof_count p < 2 ^ 32 /\
   p_challenge_interval p * 100 < 2 ^ 31 /\ p_max_vdf_count p < 2 ^ 31)%N.

Open Scope N_scope.
Definition nsum (l : list N) : N := fold_right N.add 0 l.

(** buffers seen by the blocks on top of a genesis block with buffer 0, given the fees of each block *)
Definition buffer_after (fees : list N) : N := fold_left calc_new_txfee_buffer fees 0.
Fixpoint deductions (b : N) (fees : list N) : list N :=
  match fees with
  | [] => []
  | f :: fs => calc_min_reward_deduction b :: deductions (calc_new_txfee_buffer b f) fs
  end.
