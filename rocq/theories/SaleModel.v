(** Contracts that sell tokens: /repo/src/contract/fixed_price_token.js, fixed_price_liquid_token.js, crypto_horse_race.js, at the level of their source code, in the same
    way as CtrModel. *)
Require Import List Arith NArith Bool.
From Verif Require Import BytesLib EngineModel CtrModel.
Import List ListNotations.
Open Scope N_scope.

(** send and mint read the address last (src/vm/Engine.cpp:1099-1140): to null nothing can be sent, except an amount of zero *)
Definition send_to {S} (dst : option addr) (amount : N) (cur : addr) : act S unit :=
  match dst with Some a => send a amount cur | None => if amount =? 0 then ret tt else fail end.
Definition mint_to {S} (dst : option addr) (amount : N) : act S unit :=
  match dst with Some a => mint a amount | None => if amount =? 0 then ret tt else fail end.
Definition self {S} : act S addr := fun e c => Some (e_self e, c).

(** ** fixed_price_token.js *)
Module PriceToken.
  Record vars := mk { owner : addr; price : N; currency : addr }.
  Inductive method := Buy | Withdraw (amount : N) | Recover (amount : N) (currency : addr) | Transfer (owner_ : addr).
  Definition check_owner : act vars unit := v <- get ;; check_user (owner v).   (** 15-18 *)
  Definition exec (m : method) : act vars unit :=
    v <- get ;;
    match m with
    | Buy => d <- deposit ;; assert (addr_eqb (fst d) (currency v)) ;; x <- umul (snd d) (price v) ;; x <- ushr x 64 ;; u <- user ;; mint_to u x   (** 20-25 *)
    | Withdraw amount => check_owner ;; b <- balance (currency v) ;; send (owner v) (if amount =? 0 then b else amount) (currency v)   (** 27-37 *)
    | Recover amount cur => check_owner ;; send (owner v) amount cur   (** 39-44: the argument hides the variable *)
    | Transfer a => check_owner ;; set (mk a (price v) (currency v))   (** 46-51 *)
    end.
End PriceToken.

(** ** fixed_price_liquid_token.js *)
Module LiquidToken.
  Record vars := mk { owner : addr; price : N; ratio : N; currency : addr; owner_balance : N }.
  Inductive method := Buy | Sell | Withdraw (amount : N) | Recover (amount : N) (currency : addr) | Transfer (owner_ : addr).
  (** 10-19 *)
  Definition init (owner_ : addr) (price_ : N) (currency_ : addr) (ratio_ : N) : option vars :=
    if (0 <? price_) && (ratio_ <? 1000) then Some (mk owner_ price_ ratio_ currency_ 0) else None.
  Definition check_owner : act vars unit := v <- get ;; check_user (owner v).   (** 21-24 *)
  Definition set_owner_balance (v : vars) (x : N) : vars := mk (owner v) (price v) (ratio v) (currency v) x.
  Definition exec (m : method) : act vars unit :=
    v <- get ;;
    match m with
    | Buy =>   (** 26-33 *)
      d <- deposit ;; assert (addr_eqb (fst d) (currency v)) ;;
      x <- umul (snd d) (ratio v) ;; x <- udiv x 1000 ;; b <- uadd (owner_balance v) x ;; set (set_owner_balance v b) ;;
      x <- umul (snd d) (price v) ;; x <- ushr x 64 ;; u <- user ;; mint_to u x
    | Sell =>   (** 35-45 *)
      d <- deposit ;; me <- self ;; assert (addr_eqb (fst d) me) ;;
      x <- ushl (snd d) 64 ;; x <- udiv x (price v) ;; r <- usub 1000 (ratio v) ;; x <- umul x r ;; x <- udiv x 1000 ;;
      u <- user ;; send_to u x (currency v) ;; send native (snd d) me
    | Withdraw amount =>   (** 47-61 *)
      check_owner ;; let amount := if amount =? 0 then owner_balance v else amount in
      assert (amount <=? owner_balance v) ;; b <- usub (owner_balance v) amount ;; set (set_owner_balance v b) ;; send (owner v) amount (currency v)
    | Recover amount cur => check_owner ;; send (owner v) amount cur   (** 63-68: the argument hides the variable *)
    | Transfer a => check_owner ;; set (mk a (price v) (ratio v) (currency v) (owner_balance v))   (** 70-75 *)
    end.
End LiquidToken.

(** ** crypto_horse_race.js *)
Module HorseRace.
  (** [wallets]: the map of maps, as a list with one entry for each user and horse that was ever written; [balances]: the array "balance" *)
  Record vars := mk { currency : addr; precision : N; token_scale : N; activation_height : N; wallets : list (addr * N * N); balances : list N }.
  Inductive method := Buy (index : N) | Sell (index amount : N) | Transfer (target : addr) (amount index : N).
  (** 15-30; a constructor that is given so many digits that the multiplication overflows throws *)
  Definition init (num_horses : nat) (currency_ : addr) (precision_ decimals : N) (activation : N) : option vars :=
    if (10 ^ precision_ <? 2 ^ 256) && (10 ^ decimals <? 2 ^ 256) then Some (mk currency_ (10 ^ precision_) (10 ^ decimals) activation [] (repeat 0 num_horses)) else None.
  (** 36-38, the body of the loop *)
  Definition iterate (x y : N) : act vars N := a <- ushl y 64 ;; b <- ushl x 64 ;; b <- udiv b y ;; s <- uadd a b ;; ushr s 65.
  Fixpoint iterations (n : nat) (x y : N) : act vars N :=
    match n with O => ret y | S n => if 0 <? y then z <- iterate x y ;; iterations n x z else ret y end.
  (** 32-40; PRICE_ITERS = 20 *)
  Definition calc_price (x : N) : act vars N := v <- get ;; x <- udiv x (precision v) ;; y <- iterations 20 x x ;; umul y (precision v).
  Definition balance_of (index : N) : act vars N := v <- get ;; match nth_error (balances v) (N.to_nat index) with Some b => ret b | None => fail end.
  Definition get_price (index : N) : act vars N := b <- balance_of index ;; calc_price b.   (** 42-45 *)
  Definition get_buy_price (index amount : N) : act vars N := b <- balance_of index ;; x <- uadd b amount ;; calc_price x.   (** 47-50 *)
  Definition get_sell_price (index amount : N) : act vars N :=   (** 52-55 *)
    b <- balance_of index ;; p <- get_price index ;; v <- get ;; x <- umul amount p ;; x <- udiv x (token_scale v) ;; x <- usub b x ;; calc_price x.
  (** 57-76: a wallet that is not there is empty *)
  Definition same_key (u : addr) (i : N) (e : addr * N * N) : bool := addr_eqb (fst (fst e)) u && (snd (fst e) =? i).
  Definition tokens (w : list (addr * N * N)) (u : addr) (i : N) : N := match find (same_key u i) w with Some e => snd e | None => 0 end.
  Definition put (w : list (addr * N * N)) (u : addr) (i x : N) : list (addr * N * N) := (u, i, x) :: filter (fun e => negb (same_key u i e)) w.
  Definition put_tokens (u : addr) (i x : N) : act vars unit :=
    v <- get ;; set (mk (currency v) (precision v) (token_scale v) (activation_height v) (put (wallets v) u i x) (balances v)).
  Fixpoint replace (l : list N) (i : nat) (x : N) : list N :=
    match l, i with [], _ => [] | _ :: l, O => x :: l | y :: l, S i => y :: replace l i x end.
  Definition put_balance (i x : N) : act vars unit :=
    v <- get ;; set (mk (currency v) (precision v) (token_scale v) (activation_height v) (wallets v) (replace (balances v) (N.to_nat i) x)).
  Definition the_user : act vars addr := u <- user ;; match u with Some a => ret a | None => fail end.
  Definition exec (m : method) : act vars unit :=
    v <- get ;;
    match m with
    | Buy i =>   (** 78-91 *)
      assert (i <? N.of_nat (length (balances v))) ;; h <- height ;; assert (activation_height v <=? h) ;;
      d <- deposit ;; assert (addr_eqb (fst d) (currency v)) ;;
      price <- get_buy_price i (snd d) ;; x <- umul (snd d) (token_scale v) ;; amount <- udiv x price ;;
      u <- the_user ;; t <- uadd (tokens (wallets v) u i) amount ;; put_tokens u i t ;;
      b <- balance_of i ;; b <- uadd b (snd d) ;; put_balance i b
    | Sell i amount =>   (** 93-113 *)
      assert (0 <? amount) ;; assert (i <? N.of_nat (length (balances v))) ;;
      u <- the_user ;; assert (amount <=? tokens (wallets v) u i) ;;
      price <- get_sell_price i amount ;; x <- umul amount price ;; x <- udiv x (token_scale v) ;;
      t <- usub (tokens (wallets v) u i) amount ;; put_tokens u i t ;;
      b <- balance_of i ;; b <- usub b x ;; put_balance i b ;;
      send u x (currency v)
    | Transfer target amount i =>   (** 115-134: the target is credited after the sender was debited *)
      assert (0 <? amount) ;; assert (i <? N.of_nat (length (balances v))) ;;
      u <- the_user ;; assert (amount <=? tokens (wallets v) u i) ;;
      t <- usub (tokens (wallets v) u i) amount ;; put_tokens u i t ;;
      v <- get ;; t <- uadd (tokens (wallets v) target i) amount ;; put_tokens target i t
    end.
End HorseRace.
