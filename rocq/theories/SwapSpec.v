(** What users rely on in the swap contract *)
Require Import List Arith NArith Bool.
From Verif Require Import BytesLib EngineModel CtrModel SwapModel.
Import ListNotations.
Open Scope N_scope.
Import Swap.

Definition sumN {A} (f : A -> N) (l : list A) : N := fold_right (fun x s => f x + s) 0 l.
(** what all pools together hold of a token, and the fees that nobody has claimed yet *)
Definition reserves (i : bool) (v : Swap.vars) : N := sumN (fun p => at2 i (Swap.p_bal p)) (Swap.state v).
Definition unclaimed (i : bool) (v : Swap.vars) : N := sumN (fun p => at2 i (Swap.p_paid p) - at2 i (Swap.p_claimed p)) (Swap.state v).
(** the liquidity units of all users that are in pool [n] *)
Definition units (i : bool) (n : N) (v : Swap.vars) : N := sumN (fun x => if Swap.u_pool (snd x) =? n then at2 i (Swap.u_bal (snd x)) else 0) (Swap.users v).
(** What trading token [i] for the other one, [k], may do to a pool: liquidity units are not touched, the reserve of [i] grows, that of [k] shrinks;
    the product of the reserves, counting the new fees, does not decrease; the fee is at least the rate of the pool (a fraction of 2^64) of what leaves the reserve. *)
Definition traded (i : bool) (p p' : pool) : Prop :=
  let k := negb i in
  p_tot p' = p_tot p /\ p_rate p' = p_rate p /\ p_claimed p' = p_claimed p /\ at2 i (p_paid p') = at2 i (p_paid p) /\
  at2 i (p_bal p) <= at2 i (p_bal p') /\ at2 k (p_bal p') <= at2 k (p_bal p) /\ at2 k (p_paid p) <= at2 k (p_paid p') /\
  at2 i (p_bal p) * at2 k (p_bal p) <= at2 i (p_bal p') * (at2 k (p_bal p') + (at2 k (p_paid p') - at2 k (p_paid p))) /\
  (at2 k (p_bal p) - at2 k (p_bal p')) * p_rate p <= (at2 k (p_paid p') - at2 k (p_paid p)) * 2 ^ 64.
(** all deposits fit 128 bits, as amounts in transactions do *)
Definition deposits_fit {M} (l : list (event M * list payment * list (addr * N))) : Prop :=
  forall e m p mt cur n, In (Call e m, p, mt) l -> e_deposit e = Some (cur, n) -> n < 2 ^ 128.
(** the states a swap contract can come to, whatever anybody does *)
Definition reachable (token currency : addr) (x : vars * (addr -> N)) : Prop :=
  exists v bal h l k, init token currency = Some v /\ history exec (v, bal) h l x k /\ deposits_fit l.
