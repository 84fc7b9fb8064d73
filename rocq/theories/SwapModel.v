(** The swap contract, /repo/src/contract/swap.js, at the level of its source code (see CtrModel.v).
    Objects and arrays are references in the code; here every function reads what it needs from the variables of the contract and writes it back.  A call that
    throws changes nothing and send() runs no other code, so the order of the writes inside a function cannot be observed.  Return values are left out. *)
Require Import List Arith NArith Bool.
From Verif Require Import BytesLib EngineModel CtrModel.
Import ListNotations.
Open Scope N_scope.

(** an array of two numbers; [false]: index 0, the token; [true]: index 1, the currency *)
Definition N2 : Type := (N * N)%type.
Definition at2 {A} (i : bool) (x : A * A) : A := if i then snd x else fst x.
Definition upd2 {A} (i : bool) (v : A) (x : A * A) : A * A := if i then (fst x, v) else (v, snd x).
Fixpoint upd {A} (l : list A) (n : nat) (x : A) : list A :=
  match l, n with [], _ => [] | _ :: l, O => x :: l | y :: l, S n => y :: upd l n x end.

Module Swap.
  Definition FRACT_BITS : N := 64.
  Definition LOCK_DURATION : N := 8640.
  (** swap.js:4-9 *)
  Definition fee_rates : list N := [9223372036854776; 46116860184273879; 184467440737095516; 922337203685477581].
  (** swap.js:27-34: an entry of `state` *)
  Record pool := mk_pool { p_bal : N2; p_tot : N2; p_rate : N; p_paid : N2; p_claimed : N2 }.
  (** swap.js:96-101, 119: an entry of `users`.  unlock_height is written by the call that makes the entry. *)
  Record luser := mk_user { u_pool : N; u_bal : N2; u_last_paid : N2; u_last_tot : N2; u_unlock : N }.
  (** swap.js:11-14.  this.user may be null, which is a key like any other *)
  Record vars := mk { tokens : addr * addr; state : list pool; volume : N2; users : list (option addr * luser) }.
  (** swap.js:20-36; [None]: an exception *)
  Definition init (token currency : addr) : option vars :=
    if addr_eqb token currency then None
    else Some (mk (token, currency) (map (fun r => mk_pool (0, 0) (0, 0) r (0, 0) (0, 0)) fee_rates) (0, 0) []).

  Definition key_eqb (a b : option addr) : bool :=
    match a, b with Some x, Some y => addr_eqb x y | None, None => true | _, _ => false end.
  Fixpoint find (k : option addr) (l : list (option addr * luser)) : option luser :=
    match l with [] => None | (x, u) :: l => if key_eqb x k then Some u else find k l end.
  Fixpoint put (k : option addr) (u : luser) (l : list (option addr * luser)) : list (option addr * luser) :=
    match l with [] => [(k, u)] | (x, o) :: l => if key_eqb x k then (x, u) :: l else (x, o) :: put k u l end.
  (** state[n]; an index without an entry gives null, which throws when it is used *)
  Definition get_pool (n : N) : act vars pool := v <- get ;; match nth_error (state v) (N.to_nat n) with Some p => ret p | None => fail end.
  Definition set_pool (n : N) (p : pool) : act vars unit := v <- get ;; set (mk (tokens v) (upd (state v) (N.to_nat n) p) (volume v) (users v)).
  (** users[this.user] and the assert(user) that follows *)
  Definition get_user : act vars luser := k <- user ;; v <- get ;; match find k (users v) with Some u => ret u | None => fail end.
  Definition set_user (u : luser) : act vars unit := k <- user ;; v <- get ;; set (mk (tokens v) (state v) (volume v) (put k u (users v))).
  (** send(this.user, amount, tokens[i]), with an amount that is not zero: throws when this.user is null *)
  Definition send_user (i : bool) (amount : N) : act vars unit :=
    k <- user ;; v <- get ;; match k with Some a => send a amount (at2 i (tokens v)) | None => fail end.
  (** swap.js:38-55, one of the two tokens *)
  Definition earned1 (p : pool) (u : luser) (i : bool) : act vars N :=
    if 0 <? at2 i (u_bal u) then
      f <- usub (at2 i (p_paid p)) (at2 i (u_last_paid u)) ;;
      if 0 <? f then
        x <- umul 2 f ;; x <- umul x (at2 i (u_bal u)) ;; d <- uadd (at2 i (p_tot p)) (at2 i (u_last_tot u)) ;; q <- udiv x d ;;
        r <- usub (at2 i (p_paid p)) (at2 i (p_claimed p)) ;; ret (N.min q r)
      else ret 0
    else ret 0.
  (** swap.js:68-77, one round of the loop *)
  Definition payout1 (i : bool) (amount : N) : act vars unit :=
    u <- get_user ;; p <- get_pool (u_pool u) ;;
    (if 0 <? amount then
       c <- uadd (at2 i (p_claimed p)) amount ;; set_pool (u_pool u) (mk_pool (p_bal p) (p_tot p) (p_rate p) (p_paid p) (upd2 i c (p_claimed p))) ;;
       send_user i amount
     else ret tt) ;;
    set_user (mk_user (u_pool u) (u_bal u) (upd2 i (at2 i (p_paid p)) (u_last_paid u)) (upd2 i (at2 i (p_tot p)) (u_last_tot u)) (u_unlock u)).
  (** swap.js:64-79 *)
  Definition payout_ : act vars unit :=
    u <- get_user ;; p <- get_pool (u_pool u) ;; a <- earned1 p u false ;; b <- earned1 p u true ;; payout1 false a ;; payout1 true b.
  (** swap.js:94-109: the entry of the user and the pool it is in *)
  Definition enter (pool_idx : N) : act vars unit :=
    k <- user ;; v <- get ;;
    match find k (users v) with
    | None => set_user (mk_user pool_idx (0, 0) (0, 0) (0, 0) 0)
    | Some u =>
      (if (0 <? fst (u_bal u)) || (0 <? snd (u_bal u)) then assert (pool_idx =? u_pool u) ;; payout_ else ret tt) ;;
      u <- get_user ;; set_user (mk_user pool_idx (u_bal u) (u_last_paid u) (u_last_tot u) (u_unlock u))
    end.
  (** swap.js:88-120 *)
  Definition add_liquid_ (i : bool) (pool_idx amount : N) : act vars unit :=
    v <- get ;; assert (pool_idx <? N.of_nat (List.length (state v))) ;; enter pool_idx ;;
    p <- get_pool pool_idx ;; u <- get_user ;; h <- height ;;
    b <- uadd (at2 i (p_bal p)) amount ;; t <- uadd (at2 i (p_tot p)) amount ;; ub <- uadd (at2 i (u_bal u)) amount ;; ul <- uadd h LOCK_DURATION ;;
    let tot := upd2 i t (p_tot p) in
    set_pool pool_idx (mk_pool (upd2 i b (p_bal p)) tot (p_rate p) (p_paid p) (p_claimed p)) ;;
    set_user (mk_user (u_pool u) (upd2 i ub (u_bal u)) (p_paid p) tot ul).
  (** swap.js:138-149: how much of token [i] and of the other one *)
  Definition shares (p : pool) (i : bool) (amount : N) : act vars (N * N) :=
    let k := negb i in
    let bi := at2 i (p_bal p) in let bk := at2 k (p_bal p) in let ti := at2 i (p_tot p) in let tk := at2 k (p_tot p) in
    x <- umul bi amount ;; r <- udiv x ti ;;
    if bi <? ti then
      if tk <? bk then d <- usub bk tk ;; y <- umul d amount ;; t <- udiv y ti ;; ret (r, t)
      else ret (r, 0)
    else if bk <? tk then ret (amount, 0) else ret (r, 0).
  (** swap.js:130-171 *)
  Definition rem_liquid_ (i : bool) (amount : N) (do_send : bool) : act vars N2 :=
    u <- get_user ;; p <- get_pool (u_pool u) ;; rt <- shares p i amount ;;
    let r := fst rt in let t := snd rt in let k := negb i in
    (if (0 <? r) && do_send then send_user i r else ret tt) ;; b <- usub (at2 i (p_bal p)) r ;;
    (if (0 <? t) && do_send then send_user k t else ret tt) ;; b' <- usub (at2 k (p_bal p)) t ;;
    ub <- usub (at2 i (u_bal u)) amount ;; tot <- usub (at2 i (p_tot p)) amount ;;
    set_pool (u_pool u) (mk_pool (upd2 k b' (upd2 i b (p_bal p))) (upd2 i tot (p_tot p)) (p_rate p) (p_paid p) (p_claimed p)) ;;
    set_user (mk_user (u_pool u) (upd2 i ub (u_bal u)) (u_last_paid u) (u_last_tot u) (u_unlock u)) ;;
    ret (upd2 k t (upd2 i r (0, 0))).
  (** swap.js:173-189 *)
  Definition rem_liquid (i : bool) (amount : N) (dry_run : bool) : act vars N2 :=
    assert (negb (amount =? 0)) ;; u <- get_user ;;
    (if dry_run then ret tt else h <- height ;; assert (u_unlock u <=? h)) ;;
    assert (amount <=? at2 i (u_bal u)) ;; rem_liquid_ i amount (negb dry_run).
  (** swap.js:198-208, one round of the loop; [f]: what is done with the liquidity *)
  Definition each (f : bool -> N -> act vars N2) (i : bool) (out : N2) : act vars N2 :=
    u <- get_user ;; let amount := at2 i (u_bal u) in
    if 0 <? amount then r <- f i amount ;; a <- uadd (fst out) (fst r) ;; b <- uadd (snd out) (snd r) ;; ret (a, b) else ret out.
  (** swap.js:191-209 *)
  Definition rem_all_liquid (dry_run : bool) : act vars N2 :=
    payout_ ;; out <- each (fun i n => rem_liquid i n dry_run) false (0, 0) ;; each (fun i n => rem_liquid i n dry_run) true out.
  (** swap.js:211-237 *)
  Definition switch_pool (pool_idx : N) : act vars unit :=
    v <- get ;; assert (pool_idx <? N.of_nat (List.length (state v))) ;; u <- get_user ;; h <- height ;; assert (u_unlock u <=? h) ;; payout_ ;;
    out <- each (fun i n => rem_liquid_ i n false) false (0, 0) ;; out <- each (fun i n => rem_liquid_ i n false) true out ;;
    (if 0 <? fst out then add_liquid_ false pool_idx (fst out) else ret tt) ;;
    (if 0 <? snd out then add_liquid_ true pool_idx (snd out) else ret tt).
  (** swap.js:276-282: what a pool would give for [a]: taken from the pool, kept as a fee, given *)
  Definition quote (p : pool) (i : bool) (a : N) : act vars (N * N * N) :=
    let k := negb i in let bi := at2 i (p_bal p) in let bk := at2 k (p_bal p) in
    x <- umul bi bk ;; s <- uadd bi a ;; q <- udiv x s ;; t <- usub bk q ;;
    f <- umul t (p_rate p) ;; f <- ushr f FRACT_BITS ;; f <- uadd f 1 ;; let fee := N.min f t in
    g <- usub t fee ;; ret (t, fee, g).
  (** swap.js:272-291: the pool that gives most, the first of those; [n]: the index of the first pool of the list *)
  Fixpoint best (l : list pool) (n : N) (i : bool) (a : N) (acc : option (N * (N * N * N))) : act vars (option (N * (N * N * N))) :=
    match l with
    | [] => ret acc
    | p :: l =>
      acc <- (if 0 <? at2 (negb i) (p_bal p) then
                q <- quote p i a ;; ret (if match acc with Some (_, (_, _, g)) => g | None => 0 end <? snd q then Some (n, q) else acc)
              else ret acc) ;;
      best l (n + 1) i a acc
    end.
  (** swap.js:262-307: the amount that is left and the sum of what is given *)
  Fixpoint trade_loop (rounds : nat) (i : bool) (chunk left total : N) : act vars (N * N) :=
    match rounds with
    | O => ret (left, total)
    | S rounds =>
      if 0 <? left then
        let a := N.min chunk left in let k := negb i in
        v <- get ;; o <- best (state v) 0 i a None ;;
        match o with
        | None => trade_loop rounds i chunk left total
        | Some (n, (t, fee, g)) =>
          p <- get_pool n ;; total <- uadd total g ;; vol <- uadd (at2 k (volume v)) t ;;
          b <- uadd (at2 i (p_bal p)) a ;; b' <- usub (at2 k (p_bal p)) t ;; paid <- uadd (at2 k (p_paid p)) fee ;; left <- usub left a ;;
          set (mk (tokens v) (upd (state v) (N.to_nat n) (mk_pool (upd2 k b' (upd2 i b (p_bal p))) (p_tot p) (p_rate p) (upd2 k paid (p_paid p)) (p_claimed p)))
                  (upd2 k vol (volume v)) (users v)) ;;
          trade_loop rounds i chunk left total
        end
      else ret (left, total)
    end.
  (** swap.js:249-315 without the sums out[], which only go into the return value.  min_trade: null or zero means none (316: uint()) *)
  Definition trade (i : bool) (dst : addr) (min_trade : option N) (num_iter : N) : act vars unit :=
    v <- get ;; assert (0 <? num_iter) ;; d <- deposit ;; assert (addr_eqb (fst d) (at2 i (tokens v))) ;;
    x <- uadd (snd d) num_iter ;; x <- usub x 1 ;; chunk <- udiv x num_iter ;;
    lt <- trade_loop (N.to_nat num_iter) i chunk (snd d) 0 ;;
    assert (fst lt =? 0) ;; assert (match min_trade with Some m => m <=? snd lt | None => true end) ;; assert (0 <? snd lt) ;;
    send dst (snd lt) (at2 (negb i) (tokens v)).
  (** swap.js:122-128 *)
  Definition add_liquid (i : bool) (pool_idx : N) : act vars unit :=
    v <- get ;; d <- deposit ;; assert (addr_eqb (fst d) (at2 i (tokens v))) ;; add_liquid_ i pool_idx (snd d).
  (** The public methods that are not const; the argument [i] is tested with assert(i < 2) first, so it is 0 or 1. *)
  Inductive method := Payout | AddLiquid (i : bool) (pool_idx : N) | RemLiquid (i : bool) (amount : N) (dry_run : bool) | RemAllLiquid (dry_run : bool)
    | SwitchPool (pool_idx : N) | Trade (i : bool) (address : addr) (min_trade : option N) (num_iter : N).
  Definition exec (m : method) : act vars unit :=
    match m with
    | Payout => payout_   (** 81-86 *)
    | AddLiquid i n => add_liquid i n
    | RemLiquid i amount dry => rem_liquid i amount dry ;; ret tt
    | RemAllLiquid dry => rem_all_liquid dry ;; ret tt
    | SwitchPool n => switch_pool n
    | Trade i dst m n => trade i dst m n
    end.
End Swap.
