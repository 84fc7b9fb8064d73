(** What the node tells about a swap before one trades or withdraws, and what the wallet sends: src/Node_api.cpp:889-932, 1227-1351, 1408-1430, src/Wallet.cpp:417-520.
    The contract is that of SwapModel.v.  Gas is not modelled, so a query that runs out of it is not either. *)
Require Import List Arith NArith Bool.
From Verif Require Import BytesLib EngineModel CtrModel SwapModel.
Import ListNotations. Import Swap.
Open Scope N_scope.

(** swap.js:262-307 with the sums out[], which SwapModel.trade_loop leaves out *)
Fixpoint trade_loop_r (rounds : nat) (i : bool) (chunk left total : N) (out : N2) : act vars (N * N * N2) :=
  match rounds with
  | O => ret (left, total, out)
  | S rounds =>
    if 0 <? left then
      let a := N.min chunk left in let k := negb i in
      v <- get ;; o <- best (state v) 0 i a None ;;
      match o with
      | None => trade_loop_r rounds i chunk left total out
      | Some (n, (t, fee, g)) =>
        p <- get_pool n ;; total <- uadd total g ;; o0 <- uadd (fst out) t ;; o1 <- uadd (snd out) fee ;; vol <- uadd (at2 k (volume v)) t ;;
        b <- uadd (at2 i (p_bal p)) a ;; b' <- usub (at2 k (p_bal p)) t ;; paid <- uadd (at2 k (p_paid p)) fee ;; left <- usub left a ;;
        set (mk (tokens v) (upd (state v) (N.to_nat n) (mk_pool (upd2 k b' (upd2 i b (p_bal p))) (p_tot p) (p_rate p) (upd2 k paid (p_paid p)) (p_claimed p)))
                (upd2 k vol (volume v)) (users v)) ;;
        trade_loop_r rounds i chunk left total (o0, o1)
      end
    else ret (left, total, out)
  end.
(** swap.js:249-318 with its return value: what left the pools and the part of it that is kept as fees *)
Definition trade_r (i : bool) (dst : addr) (min_trade : option N) (num_iter : N) : act vars N2 :=
  v <- get ;; assert (0 <? num_iter) ;; d <- deposit ;; assert (addr_eqb (fst d) (at2 i (tokens v))) ;;
  x <- uadd (snd d) num_iter ;; x <- usub x 1 ;; chunk <- udiv x num_iter ;;
  lt <- trade_loop_r (N.to_nat num_iter) i chunk (snd d) 0 (0, 0) ;;
  assert (fst (fst lt) =? 0) ;; assert (match min_trade with Some m => m <=? snd (fst lt) | None => true end) ;; assert (0 <? snd (fst lt)) ;;
  send dst (snd (fst lt)) (at2 (negb i) (tokens v)) ;; ret (snd lt).
(** swap.js:57-62; a const method.  The address is an argument *)
Definition get_earned_fees (a : addr) : act vars N2 :=
  v <- get ;; match find (Some a) (users v) with
              | None => fail
              | Some u => p <- get_pool (u_pool u) ;; x <- earned1 p u false ;; y <- earned1 p u true ;; ret (x, y)
              end.

(** src/Node_api.cpp:889-932: a method is executed on the state after the last block and what it writes is dropped.  The deposit is only shown to the method
    (vm_interface.cpp:28-34): it is not added to the balance of the contract, as it is when a transaction is executed (Node_validate.cpp:421-433). *)
Definition ask {A} (m : act vars A) (user : option addr) (dep : option (addr * N)) (self : addr) (height version : N) (x : vars * (addr -> N)) : option A :=
  match m (mk_env user height dep self version) (mk_ctr (fst x) (snd x) [] []) with Some (r, _) => Some r | None => None end.
Definition u128 (n : N) : N := n mod 2 ^ 128.
Definition sub128 (a b : N) : N := (a + 2 ^ 128 - b) mod 2 ^ 128.
(** src/Node_api.cpp:1408-1419; the trade would pay to the contract itself, without a minimum.  (An index above 1 reads past the end of info.tokens.) *)
Definition trade_estimate (self : addr) (height version : N) (x : vars * (addr -> N)) (i : bool) (amount num_iter : N) : option N2 :=
  match ask (trade_r i self None num_iter) None (Some (at2 i (tokens (fst x)), amount)) self height version x with
  | Some r => Some (sub128 (u128 (fst r)) (u128 (snd r)), u128 (snd r))
  | None => None
  end.
(** src/Node_api.cpp:1421-1424 *)
Definition fees_earned (self : addr) (height version : N) (x : vars * (addr -> N)) (a : addr) : option N2 :=
  match ask (get_earned_fees a) None None self height version x with Some r => Some (u128 (fst r), u128 (snd r)) | None => None end.
(** src/Node_api.cpp:1426-1429 *)
Definition equivalent_liquidity (self : addr) (height version : N) (x : vars * (addr -> N)) (a : addr) : option N2 :=
  match ask (rem_all_liquid true) (Some a) None self height version x with Some r => Some (u128 (fst r), u128 (snd r)) | None => None end.

(** src/Node_api.cpp:1227-1321: the sums over the pools, what the contract holds, and the volumes; names, rates and yields are left out *)
Record swap_info := mk_info { i_tokens : addr * addr; i_wallet : N2; i_balance : N2; i_fees_paid : N2; i_fees_claimed : N2; i_user_total : N2; i_volume : N2; i_volume_1d : N2; i_volume_7d : N2 }.
Definition both (f : bool -> N) : N2 := (f false, f true).
Definition sum_pools (f : pool -> N2) (v : vars) (i : bool) : N := fold_left (fun s p => u128 (s + u128 (at2 i (f p)))) (state v) 0.
(** 1298-1311: [old]: the volume that was stored at the height of a day (or week) ago, if there was one *)
Definition since (v : vars) (old : option vars) (i : bool) : N :=
  match old with Some o => sub128 (u128 (at2 i (volume v))) (u128 (at2 i (volume o))) | None => u128 (at2 i (volume v)) end.
Definition get_swap_info (x : vars * (addr -> N)) (day week : option vars) : swap_info :=
  let v := fst x in
  mk_info (tokens v) (both (fun i => snd x (at2 i (tokens v)))) (both (sum_pools p_bal v)) (both (sum_pools p_paid v)) (both (sum_pools p_claimed v)) (both (sum_pools p_tot v))
    (both (fun i => u128 (at2 i (volume v)))) (both (since v day)) (both (since v week)).
(** 1287, 1293, 1301, 1307: the height a day, or a week, ago *)
Definition ago (height span : N) : N := height - N.min span height.
Definition DAY : N := 8640.
Definition WEEK : N := 60480.

(** src/Wallet.cpp:417-441: the trade and its deposit; [dst]: the first address of the wallet; [None]: the currency is none of the two *)
Definition wallet_trade (x : vars * (addr -> N)) (dst : addr) (amount : N) (currency : addr) (min_trade : option N) (num_iter : N) : option (method * (addr * N)) :=
  let t0 := if addr_eqb currency (fst (tokens (fst x))) then Some false else None in
  let t := if addr_eqb currency (snd (tokens (fst x))) then Some true else t0 in
  match t with Some i => Some (Trade i dst min_trade num_iter, (currency, amount)) | None => None end.
(** src/Wallet.cpp:443-479: the deposits of a transaction, in their order *)
Definition wallet_add (x : vars * (addr -> N)) (amount : N2) (pool_idx : N) : list (method * (addr * N)) :=
  flat_map (fun i : bool => if at2 i amount =? 0 then [] else [(AddLiquid i pool_idx, (at2 i (tokens (fst x)), at2 i amount))]) [false; true].
(** src/Wallet.cpp:481-520: the operations of a transaction, in their order *)
Definition wallet_remove (amount : N2) : list method :=
  Payout :: flat_map (fun i : bool => if at2 i amount =? 0 then [] else [RemLiquid i (at2 i amount) false]) [false; true].
