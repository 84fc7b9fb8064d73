(** What contracts that sell tokens promise *)
Require Import List Arith NArith QArith Bool.
From Verif Require Import BytesLib EngineModel CtrModel CtrSpec SaleModel.
Import List ListNotations.
Open Scope N_scope.

Definition total (l : list (addr * N)) : N := fold_right (fun x s => snd x + s) 0 l.
(** what was paid to [to] in [cur] *)
Definition paid_to (to cur : addr) (l : list payment) : N :=
  fold_right (fun p s => (if addr_eqb (pm_to p) to && addr_eqb (pm_currency p) cur then pm_amount p else 0) + s) 0 l.

(** ** Tokens that can be sold back *)
(** how many tokens are in circulation: those minted so far less those that went to the address nobody has *)
Fixpoint circulating {M} (self : addr) (T : N) (l : list (entry M)) : N :=
  match l with [] => T | x :: l => circulating self (T + total (minted_by x) - paid_to native self (paid_by x)) l end.
(** The ledger: all calls are to the contract [self], and nobody pays in tokens that are not in circulation *)
Fixpoint possible {M} (self : addr) (T : N) (l : list (entry M)) : Prop :=
  match l with
  | [] => True
  | x :: l => match ev_of x with
              | Call e _ => e_self e = self /\ match e_deposit e with Some (cur, n) => cur = self -> n <= T | None => True end
              | Receive _ _ => True
              end /\ possible self (T + total (minted_by x) - paid_to native self (paid_by x)) l
  end.
(** the owner does not use recover() on the currency the token is sold for *)
Definition no_recovery (cur : addr) (l : list (entry LiquidToken.method)) : Prop :=
  forall e n c p m, In (Call e (LiquidToken.Recover n c), p, m) l -> c <> cur.
(** what a seller of [n] tokens is to get: n / price * (1 - ratio / 1000), rounded down twice *)
Definition sale_value (price ratio n : N) : N := n * 2 ^ 64 / price * (1000 - ratio) / 1000.
(** the part of a payment that is for the owner *)
Definition owner_part (ratio n : N) : N := n * ratio / 1000.
(** the owner's part of everything buyers paid *)
Definition owners_parts (ratio : N) (l : list (entry LiquidToken.method)) : N :=
  fold_right (fun x s => match ev_of x with Call e LiquidToken.Buy => match e_deposit e with Some (_, n) => owner_part ratio n | None => 0 end | _ => 0 end + s) 0 l.
(** what the owner has withdrawn *)
Definition withdrawn (cur : addr) (l : list (entry LiquidToken.method)) : N :=
  fold_right (fun x s => match ev_of x with Call _ (LiquidToken.Withdraw _) => total_paid cur (paid_by x) | _ => 0 end + s) 0 l.

(** ** Bets on horses *)
(** the tokens of a horse that all users have together *)
Definition supply (i : N) (w : list (addr * N * N)) : N := fold_right (fun e s => (if snd (fst e) =? i then snd e else 0) + s) 0 w.
Definition pot (v : HorseRace.vars) (i : N) : N := nth (N.to_nat i) (HorseRace.balances v) 0.
Definition pots (v : HorseRace.vars) : N := fold_right N.add 0 (HorseRace.balances v).
(** what was paid for tokens of horses, and what was paid out *)
Definition bets (l : list (entry HorseRace.method)) : N :=
  fold_right (fun x s => match ev_of x with Call e (HorseRace.Buy _) => match e_deposit e with Some (_, n) => n | None => 0 end | _ => 0 end + s) 0 l.
Definition paid_out (cur : addr) (l : list (entry HorseRace.method)) : N := fold_right (fun x s => total_paid cur (paid_by x) + s) 0 l.
(** everything that came in, in some currency *)
Definition inflow {M} (cur : addr) (l : list (entry M)) : N := fold_right (fun x s => came_in cur (ev_of x) + s) 0 l.
(** all calls run with a version that checks products *)
Definition current {M} (l : list (entry M)) : Prop := forall x e m, In x l -> ev_of x = Call e m -> 1 <= e_version e.
