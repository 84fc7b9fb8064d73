(** Which contracts there are, who has them and how they were called, read off the chain. *)
Require Import List NArith Bool.
From Verif Require Import BytesLib EngineModel LstModel.
Import ListNotations.
Open Scope N_scope.

(** the transactions that took effect, in the order of the chain, with their heights *)
Definition effective (chain : list block) : list (N * tx) :=
  flat_map (fun b => map (fun t => (b_height b, t)) (filter (fun t => negb (t_failed t)) (b_txs b))) chain.
(** the contracts that an address has deployed *)
Definition deployed_by (chain : list block) (a : addr) : list (addr * contract) :=
  flat_map (fun x => match t_sender (snd x), t_deploy (snd x) with
                     | Some s, Some c => if addr_eqb s a then [(t_id (snd x), c)] else [] | _, _ => [] end) (effective chain).
(** the contracts that were made for an address: it is the owner that they were deployed with *)
Definition made_for (owner : contract -> option addr) (chain : list block) (a : addr) : list (addr * contract) :=
  flat_map (fun x => match t_deploy (snd x) with
                     | Some c => match owner c with Some o => if addr_eqb o a then [(t_id (snd x), c)] else [] | None => [] end
                     | None => [] end) (effective chain).
(** the calls of a contract *)
Definition calls_of (chain : list block) (a : addr) : list call :=
  flat_map (fun x => flat_map (fun o =>
      if o_exec o && addr_eqb (match o_address o with Some b => b | None => t_id (snd x) end) a
      then [mk_call (fst x) (t_id (snd x)) (o_method o) (o_args o) (o_user o) (o_deposit o)] else []) (t_execute (snd x))) (effective chain).
(** a chain: heights go up and are below 2^32 - 1, and a block has less than 2^32 things that take a number *)
Definition things (b : block) : N :=
  fold_right (fun t n => (match t_deploy t with Some _ => 1 | None => 0 end) + N.of_nat (length (t_execute t)) + n) (b_io b) (b_txs b).
Fixpoint rising (from : N) (chain : list block) : Prop :=
  match chain with [] => True | b :: chain => from <= b_height b < 2 ^ 32 - 1 /\ things b < 2 ^ 32 /\ rising (b_height b + 1) chain end.
Section KINDS.
  Variables (plot_nft offer time_lock escrow pubkey_hash zero_addr : addr).
  (** what kind of contract: its program, or its type *)
  Definition kind_of (c : contract) : addr := match c with Executable program _ => program | PubKey _ => pubkey_hash | OtherContract h => h end.
  Definition of_kind (k : option addr) (c : contract) : bool := match k with None => true | Some h => addr_eqb (kind_of c) h end.
  (** the owner that a contract starts with: the first argument of a plot NFT, an offer or a time lock, the third one (the target) of an escrow *)
  Definition first_owner (c : contract) : option addr :=
    match c with
    | PubKey a => Some a
    | Executable program args =>
      if existsb (addr_eqb program) [plot_nft; offer; time_lock] then Some (nth 0 args zero_addr)
      else if addr_eqb program escrow then Some (nth 2 args zero_addr) else None
    | OtherContract _ => None
    end.
End KINDS.
