(** What users of a swap rely on before they trade or withdraw *)
Require Import List Arith NArith Bool.
From Verif Require Import BytesLib EngineModel CtrModel CtrSpec SwapModel SwapSpec.
Import ListNotations. Import Swap.
Open Scope N_scope.

(** all fees that were ever paid in a token *)
Definition fees_paid (i : bool) (v : vars) : N := sumN (fun p => at2 i (p_paid p)) (state v).
(** what the trades of a history paid out in token [k] *)
Definition trade_pays (k : bool) (tok : addr) (en : entry method) : N :=
  match ev_of en with Call _ (Trade i _ _ _) => if Bool.eqb (negb i) k then total_paid tok (paid_by en) else 0 | _ => 0 end.
Definition trades_pay (k : bool) (tok : addr) (l : list (entry method)) : N := sumN (trade_pays k tok) l.
(** several operations of a transaction, one after the other: each is a call by [e] *)
Inductive in_order (e : env) : vars * (addr -> N) -> list method -> list payment -> vars * (addr -> N) -> Prop :=
| in_order_nil x : in_order e x [] [] x
| in_order_cons x m ms p mt y q z : happens exec x (Call e m) p mt y -> in_order e y ms q z -> in_order e x (m :: ms) (p ++ q) z.
(** the minimum a trader asks for, if any, is met *)
Definition met (min_trade : option N) (got : N) : Prop := match min_trade with Some m => m <= got | None => True end.
(** all calls of a history up to a height, or after it *)
Definition up_to (h : N) (l : list (entry method)) : Prop := forall e m p mt, In (Call e m, p, mt) l -> CtrModel.e_height e <= h.
Definition after (h : N) (l : list (entry method)) : Prop := forall e m p mt, In (Call e m, p, mt) l -> h < CtrModel.e_height e.
(** the trades after a height *)
Definition is_after (h : N) (en : entry method) : bool := match ev_of en with Call e _ => h <? CtrModel.e_height e | Receive _ _ => false end.
Definition trades_after (h : N) (k : bool) (tok : addr) (l : list (entry method)) : N := trades_pay k tok (filter (is_after h) l).
(** what the database of a node has stored for the contract up to height [h], after a history [l] from its deployment at [h0] with [x]: nothing before it was deployed *)
Definition stored_at (h : N) (x : vars * (addr -> N)) (h0 : N) (l : list (entry method)) (y : vars * (addr -> N)) (k : N) (o : option vars) : Prop :=
  (h < h0 /\ o = None) \/
  (h0 <= h /\ exists l1 l2 x1 h1, l = l1 ++ l2 /\ history exec x h0 l1 x1 h1 /\ history exec x1 h1 l2 y k /\ up_to h l1 /\ after h l2 /\ o = Some (fst x1)).
