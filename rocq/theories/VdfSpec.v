(** What a proof of time claims, said without the node's data structures. *)
Require Import List NArith.
Import ListNotations.
From Verif Require Import VdfModel.

Section SPEC.
  Variable H : N -> N.
  Variable H2 : N -> N -> N.

  (** [Hashes n x y]: [y] is the result of [n] hash evaluations that start at [x], each applied to the result of the one before. *)
  Inductive Hashes : N -> N -> N -> Prop :=
  | hashes_0 x : Hashes 0 x x
  | hashes_S n x y : Hashes n x y -> Hashes (N.succ n) x (H y).

  (** what an interval starts with: the output before, then the infused block, then the address of the timelord *)
  Definition infused (x block reward : N) : N := H2 (H2 x block) reward.

  (** every checkpoint is [n] hashes after the one before *)
  Inductive Checkpoints (n : N) : N -> list N -> Prop :=
  | cp_nil x : Checkpoints n x []
  | cp_cons x y l : Hashes n x y -> Checkpoints n y l -> Checkpoints n x (y :: l).

  (** [Work x l y]: from [x] one gets to [y] through intervals, each given by the infused block and its number of hashes (for some timelord) *)
  Inductive Work : N -> list (N * N) -> N -> Prop :=
  | work_nil x : Work x [] x
  | work_cons x b n r y l z : Hashes n (infused x b r) y -> Work y l z -> Work x ((b, n) :: l) z.
  Definition total (l : list (N * N)) : N := fold_right (fun e s => snd e + s)%N 0%N l.

  (** ** Which block is infused after how many VDF steps past a block *)
  Variables (infuse_delay commit_delay : nat) (block_iters : N -> N) (get_header : N -> option block).

  (** [Ancestor n b a]: [a] is the [n]-th predecessor of [b] *)
  Inductive Ancestor : nat -> block -> block -> Prop :=
  | anc_0 b : Ancestor 0 b b
  | anc_S n b p a : get_header (b_prev b) = Some p -> Ancestor n p a -> Ancestor (S n) b a.

  (** the newest block that was there [infuse_delay] VDF steps ago *)
  Definition Infused_block (b : block) (offset : nat) (i : block) : Prop :=
    let target := (b_vdf_height b + offset - infuse_delay)%nat in
    exists n, Ancestor n b i /\
              (offset < infuse_delay -> b_vdf_height i <= target /\
                                        forall m a, m < n -> Ancestor m b a -> target < b_vdf_height a)%nat /\
              (infuse_delay <= offset -> n = 0)%nat.
  (** the number of hashes of an interval: from the time difficulty [commit_delay] blocks before the infused one, or of the first block *)
  Definition Interval_length (i : block) (n : N) : Prop :=
    exists k a, Ancestor k i a /\ n = block_iters (b_time_diff a) /\
                (k = commit_delay \/ (k < commit_delay /\ b_height a = 0%N))%nat.
  (** the intervals prescribed after [b]: infused block and length *)
  Definition Prescribed (b : block) (l : list (N * N)) : Prop :=
    forall o e, nth_error l o = Some e -> exists i, Infused_block b o i /\ b_hash i = fst e /\ Interval_length i (snd e).
End SPEC.
