(** Which challenge and difficulty belong to a VDF height of a chain. *)
Require Import List Arith NArith Bool ZArith.
From Verif Require Import ChallengeModel.
Import ListNotations.
Open Scope N_scope.

(** [chain], the newest block first, goes back to genesis; every block is found by its hash and passes the checks on its predecessor *)
Inductive chain_of (get_header : N -> option header) (valid : header -> header -> Prop) : list header -> Prop :=
| chain_genesis g : h_height g = 0 -> h_vdf_height g = 0%nat -> get_header (h_prev g) = None -> chain_of get_header valid [g]
| chain_block b p l : chain_of get_header valid (p :: l) -> get_header (h_prev b) = Some p -> h_height b <> 0 -> valid p b -> chain_of get_header valid (b :: p :: l).

(** [x] is the result of applying [f] [n] times to [c] *)
Inductive steps (f : N -> N) : nat -> N -> N -> Prop :=
| steps_none c : steps f 0 c c
| steps_more n c x : steps f n c x -> steps f (S n) c (f x).

(** The challenge [c] and the difficulty [d] at VDF height [v]: those of the last block at or before [v], moved on by one hash per VDF height since then; VDF heights
    before the first block count backwards from it. *)
Inductive challenge_at (next before : N -> N) (chain : list header) (v : Z) (c d : N) : Prop :=
| at_block b n :
    In b chain -> (Z.of_nat (h_vdf_height b) + Z.of_nat n = v)%Z ->
    (forall b', In b' chain -> (Z.of_nat (h_vdf_height b') <= v)%Z -> (h_vdf_height b' <= h_vdf_height b)%nat) ->
    steps next n (h_challenge b) c -> d = h_space_diff b -> challenge_at next before chain v c d
| at_before g n :
    In g chain -> (Z.of_nat (h_vdf_height g) - Z.of_nat n = v)%Z -> (0 < n)%nat ->
    (forall b', In b' chain -> (h_vdf_height g <= h_vdf_height b')%nat) ->
    steps before n (h_challenge g) c -> d = h_space_diff g -> challenge_at next before chain v c d.
