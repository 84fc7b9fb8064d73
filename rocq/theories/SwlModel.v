(** Listing swaps: the index that blocks fill and the query.  Addresses are numbers.  The keys are hashes of token + "ANY", "ANY" + currency and token + currency; they are taken as different. *)
Require Import List Arith NArith Bool.
Import ListNotations.
Open Scope N_scope.

(** What a transaction deploys: a contract of params->swap_binary with its first two arguments, or anything else *)
Inductive deploy := Swap (token currency : N) | Other | Nothing.
Definition block := list (N * deploy).      (* transactions: id, deployed *)
Inductive key := KToken (t : N) | KCurrency (c : N) | KBoth (t c : N).
Definition key_eqb (a b : key) : bool :=
  match a, b with KToken x, KToken y | KCurrency x, KCurrency y => x =? y | KBoth x y, KBoth u v => (x =? u) && (y =? v) | _, _ => false end.
(** swap_index: key, height, ticket, id; contract_log for params->swap_binary: height, ticket, id.  Both in the order of their insertion, which is that of height and ticket. *)
Record st := mk_st { index : list (key * (N * N) * N); clog : list ((N * N) * N); height : N }.

(** src/Node.cpp:1163-1192, 1212: apply of one transaction; [n]: counter *)
Definition apply_tx (h : N) (x : st * N) (tx : N * deploy) : st * N :=
  let '(s, n) := x in
  match snd tx with
  | Nothing => (s, n)
  | Other => (s, n + 1)
  | Swap t c => (mk_st (index s ++ [(KToken t, (h, n), fst tx); (KCurrency c, (h, n), fst tx); (KBoth t c, (h, n), fst tx)]) (clog s ++ [((h, n), fst tx)]) (height s), n + 1)
  end.
(** src/Node.cpp:1079-1149 apply of a block, as to these tables *)
Definition apply (b : block) (s : st) : st := let '(t, _) := fold_left (apply_tx (height s)) b (s, 0) in mk_st (index t) (clog t) (height s + 1).
(** src/Node.cpp:1289-1292 revert to a height: the tables get back their version *)
Definition revert (h : N) (s : st) : st :=
  if h <? height s then mk_st (filter (fun e => fst (snd (fst e)) <? h) (index s)) (filter (fun e => fst (fst e) <? h) (clog s)) h else s.
Inductive op := Apply (b : block) | Revert (h : N).
Definition step (s : st) (o : op) : st := match o with Apply b => apply b s | Revert h => revert h s end.
Definition run (l : list op) : st := fold_left step l (mk_st [] [] 0).

Definition take (limit : option nat) (l : list N) : list N := match limit with Some n => firstn n l | None => l end.
(** src/Node_api.cpp:1186-1199 in get_swaps: which swaps; [None] as limit: a negative one *)
Definition find_swaps (s : st) (since : N) (token currency : option N) (limit : option nat) : list N :=
  let by_key k := take limit (map snd (filter (fun e => key_eqb (fst (fst e)) k && (since <=? fst (snd (fst e)))) (index s))) in
  match token, currency with
  | None, None => take limit (map snd (filter (fun e => since <=? fst (fst e)) (clog s)))
  | Some t, Some c => by_key (KBoth t c)
  | Some t, None => by_key (KToken t)
  | None, Some c => by_key (KCurrency c)
  end.
(** std::sort with L > R (src/Node_api.cpp:1205-1212), as insertion; std::sort may order equal ones in another way *)
Fixpoint insert (f : N -> N) (x : N) (l : list N) : list N := match l with [] => [x] | y :: r => if f y <? f x then x :: l else y :: insert f x r end.
Definition sort (f : N -> N) (l : list N) : list N := fold_right (insert f) [] l.
(** src/Node_api.cpp:1183-1226 get_swaps; [balance]: of get_swap_info; [rank]: order of 1214-1222 as a number *)
Definition get_swaps (balance : nat -> N -> N) (rank : N -> N) (s : st) (since : N) (token currency : option N) (limit : option nat) : list N :=
  let l := find_swaps s since token currency limit in
  match token, currency with Some _, _ => sort (balance 0%nat) l | None, Some _ => sort (balance 1%nat) l | None, None => sort rank l end.
