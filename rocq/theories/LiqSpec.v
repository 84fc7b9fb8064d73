(** What users rely on when the node tells them what liquidity they have in swaps *)
Require Import List Arith NArith Bool.
From Verif Require Import BytesLib EngineModel CtrModel SwapModel LiqModel.
Import List ListNotations.
Open Scope N_scope.
Import Swap.

(** what the contract itself has for a user: its entry of `users` *)
Definition liquidity (v : vars) (a : addr) : N2 := match find (Some a) (users v) with Some u => u_bal u | None => (0, 0) end.
(** of several users together *)
Definition total (i : bool) (v : vars) (l : list addr) : N := fold_right (fun a n => at2 i (liquidity v a) + n) 0 l.
(** an address: 32 bytes *)
Definition is_addr (a : addr) : Prop := List.length a = 32%nat /\ Forall (fun b => b < 256) a.
(** a call of which the node keeps what it needs *)
Definition plain (o : op) : Prop :=
  o_via o = Named /\ (forall n, o_method o <> SwitchPool n) /\ (forall dry, o_method o = RemAllLiquid dry -> o_arg o = true).
(** the calls of the users [l] are plain; those of others are whatever they like *)
Definition plain_users (l : list addr) (steps : list step) : Prop :=
  forall o a, In (Exec o) steps -> e_user (o_env o) = Some a -> In a l -> plain o.
(** addresses of contracts are addresses, deposits fit 128 bits *)
Definition formed (steps : list step) : Prop :=
  (forall s t c, In (Deploy s t c) steps -> is_addr s) /\ (forall o cur n, In (Exec o) steps -> e_deposit (o_env o) = Some (cur, n) -> n < 2 ^ 128).
Definition entry_of {A} (s : addr) (l : list (addr * A)) (x : A) : Prop := In (s, x) l.
