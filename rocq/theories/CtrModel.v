(** The contracts that come with the node, /repo/src/contract, at the level of their source code.
    The compiler (src/vm/Compiler.cpp) is not modelled.  A call that throws changes nothing, because the transaction fails as a whole (C22): only calls that
    took effect appear in a history.  Arguments are what is left of them after bech32(), uint(), string() etc.; where the code does not convert an argument, a
    value of a wrong type makes the call throw (send, arithmetic and order comparisons refuse it: src/vm/Engine.cpp:1101, 1341, 1603).  Memos are left out. *)
Require Import List Arith NArith Bool.
From Verif Require Import BytesLib EngineModel.
Import ListNotations.
Open Scope N_scope.

(** ** What a call sees: this.user, this.height, this.deposit, this.address, and the protocol version of the engine *)
Record env := mk_env { e_user : option addr; e_height : N; e_deposit : option (addr * N); e_self : addr; e_version : N }.
(** a payment: to whom, which currency, how much *)
Record payment := mk_payment { pm_to : addr; pm_currency : addr; pm_amount : N }.
(** variables of the contract, balances of the contract, and what the call has sent and minted so far (the last first) *)
Record ctr (S : Type) := mk_ctr { c_vars : S; c_bal : addr -> N; c_sent : list payment; c_minted : list (addr * N) }.
Arguments mk_ctr {S}. Arguments c_vars {S}. Arguments c_bal {S}. Arguments c_sent {S}. Arguments c_minted {S}.
(** [None]: an exception *)
Definition act (S A : Type) : Type := env -> ctr S -> option (A * ctr S).
Definition ret {S A} (x : A) : act S A := fun _ c => Some (x, c).
Definition bind {S A B} (m : act S A) (k : A -> act S B) : act S B := fun e c => match m e c with Some (x, c) => k x e c | None => None end.
Notation "x <- m ;; k" := (bind m (fun x => k)) (at level 61, m at next level, right associativity).
Notation "m ;; k" := (bind m (fun _ => k)) (at level 61, right associativity).
Definition fail {S A} : act S A := fun _ _ => None.
Definition assert {S} (b : bool) : act S unit := fun _ c => if b then Some (tt, c) else None.
Definition get {S} : act S S := fun _ c => Some (c_vars c, c).
Definition set {S} (s : S) : act S unit := fun _ c => Some (tt, mk_ctr s (c_bal c) (c_sent c) (c_minted c)).
Definition user {S} : act S (option addr) := fun e c => Some (e_user e, c).
Definition height {S} : act S N := fun e c => Some (e_height e, c).
Definition deposit {S} : act S (addr * N) := fun e c => match e_deposit e with Some d => Some (d, c) | None => None end.
Definition balance {S} (cur : addr) : act S N := fun _ c => Some (c_bal c cur, c).
(** src/vm/Engine.cpp:1099-1123 *)
Definition send {S} (dst : addr) (amount : N) (cur : addr) : act S unit := fun _ c =>
  if amount =? 0 then Some (tt, c)
  else if 2 ^ 128 <=? amount then None
  else if c_bal c cur <? amount then None
  else Some (tt, mk_ctr (c_vars c) (fun x => if addr_eqb x cur then c_bal c cur - amount else c_bal c x) (mk_payment dst cur amount :: c_sent c) (c_minted c)).
(** src/vm/Engine.cpp:1125-1140 *)
Definition mint {S} (dst : addr) (amount : N) : act S unit := fun _ c =>
  if amount =? 0 then Some (tt, c) else if 2 ^ 80 <=? amount then None
  else Some (tt, mk_ctr (c_vars c) (c_bal c) (c_sent c) ((dst, amount) :: c_minted c)).
(** src/vm/Engine.cpp:1337-1410 with OPFLAG_CATCH_OVERFLOW, which the compiler sets (src/vm/Compiler.cpp:500-505) *)
Definition uadd {S} (l r : N) : act S N := fun _ c => let d := (l + r) mod 2 ^ 256 in if d <? l then None else Some (d, c).
Definition usub {S} (l r : N) : act S N := fun _ c => let d := (l + 2 ^ 256 - r) mod 2 ^ 256 in if l <? d then None else Some (d, c).
Definition umul {S} (l r : N) : act S N := fun e c =>
  let d := (l * r) mod 2 ^ 256 in
  if (if 1 <=? e_version e then negb (l =? 0) && ((2 ^ 256 - 1) / l <? r) else (d <? l) && (d <? r)) then None else Some (d, c).
Definition udiv {S} (l r : N) : act S N := fun _ c => if r =? 0 then None else Some (l / r, c).
(** src/vm/Engine.cpp:1552-1575; shifts by a constant below 256 *)
Definition ushr {S} (l n : N) : act S N := ret (l / 2 ^ n).
Definition ushl {S} (l n : N) : act S N := ret ((l * 2 ^ n) mod 2 ^ 256).
Definition is_user (u : option addr) (a : addr) : bool := match u with Some x => addr_eqb x a | None => false end.
(** assert(this.user == a) *)
Definition check_user {S} (a : addr) : act S unit := u <- user ;; assert (is_user u a).

(** ** What happens to a contract.  [Call]: a method, whose deposit is there when it begins (src/Node_validate.cpp:421-433).  [Receive]: somebody sends tokens. *)
Inductive event (M : Type) := Call (e : env) (m : M) | Receive (cur : addr) (amount : N).
Arguments Call {M}. Arguments Receive {M}.
Definition credit (bal : addr -> N) (cur : addr) (amount : N) : addr -> N := fun x => if addr_eqb x cur then bal x + amount else bal x.
Definition begin {S} (e : env) (s : S) (bal : addr -> N) : ctr S :=
  mk_ctr s (match e_deposit e with Some (cur, amount) => credit bal cur amount | None => bal end) [] [].
(** the contract, its variables and balances, before and after an event, and what was paid and minted *)
Section HISTORY.
  Context {S M : Type}.
  Variable exec : M -> act S unit.
  Inductive happens : S * (addr -> N) -> event M -> list payment -> list (addr * N) -> S * (addr -> N) -> Prop :=
  | happens_call s bal e m c : exec m e (begin e s bal) = Some (tt, c) -> happens (s, bal) (Call e m) (rev (c_sent c)) (rev (c_minted c)) (c_vars c, c_bal c)
  | happens_receive s bal cur amount : happens (s, bal) (Receive cur amount) [] [] (s, credit bal cur amount).
  (** a history: heights do not decrease; [h]: the last height *)
  Inductive history : S * (addr -> N) -> N -> list (event M * list payment * list (addr * N)) -> S * (addr -> N) -> N -> Prop :=
  | history_nil x h : history x h [] x h
  | history_cons x h ev p m y l z h' k : happens x ev p m y -> match ev with Call e _ => h' = e_height e | Receive _ _ => h' = h end -> h <= h' ->
      history y h' l z k -> history x h ((ev, p, m) :: l) z k.
End HISTORY.

(** addr_t(): the native currency *)
Definition native : addr := repeat 0 32.

(** ** time_lock.js *)
Module TimeLock.
  Record vars := mk { owner : addr; unlock_height : N }.
  Inductive method := Deposit | Withdraw (address : addr) (amount : N) (currency : addr) | SetUnlockHeight (h : N).
  (** time_lock.js:5-9 *)
  Definition init (owner : addr) (h : N) : vars := mk owner h.
  Definition check_owner : act vars unit := v <- get ;; check_user (owner v).   (** 11-14 *)
  Definition is_locked : act vars bool := v <- get ;; h <- height ;; ret (h <? unlock_height v).   (** 16-19 *)
  Definition exec (m : method) : act vars unit :=
    match m with
    | Deposit => ret tt   (** 21 *)
    | Withdraw a amount cur => check_owner ;; l <- is_locked ;; assert (negb l) ;; send a amount cur   (** 23-30 *)
    | SetUnlockHeight h => check_owner ;; v <- get ;; assert (unlock_height v <=? h) ;; set (mk (owner v) h)   (** 32-39 *)
    end.
End TimeLock.

(** ** escrow.js *)
Module Escrow.
  Record vars := mk { source : addr; target : addr; agent : addr }.
  Inductive method := Deposit | Unlock (currency : addr) | Cancel (currency : addr).
  Definition exec (m : method) : act vars unit :=
    match m with
    | Deposit => ret tt
    | Unlock cur => v <- get ;; check_user (agent v) ;; b <- balance cur ;; send (target v) b cur   (** escrow.js:14-24 *)
    | Cancel cur => v <- get ;; check_user (agent v) ;; b <- balance cur ;; send (source v) b cur   (** 26-36 *)
    end.
End Escrow.

(** ** relay.js *)
Module Relay.
  Record vars := mk { owner : addr; transfer_target : option addr }.
  Inductive method := ClaimAll (currency : addr) | Transfer (new_owner : addr) | Complete.
  Definition exec (m : method) : act vars unit :=
    match m with
    | ClaimAll cur => v <- get ;; check_user (owner v) ;; b <- balance cur ;; send (owner v) b cur   (** relay.js:10-20 *)
    | Transfer a => v <- get ;; check_user (owner v) ;; set (mk (owner v) (Some a))   (** 22-27 *)
    | Complete => v <- get ;; match transfer_target v with   (** 29-37 *)
                  | None => fail
                  | Some t => check_user t ;; set (mk t None)
                  end
    end.
End Relay.

(** ** token.js *)
Module Token.
  Record vars := mk { owner : addr }.
  Inductive method := MintTo (address : addr) (amount : N) | Transfer (owner_ : addr) | Recover (amount : N) (currency : addr).
  Definition check_owner : act vars unit := v <- get ;; check_user (owner v).
  Definition exec (m : method) : act vars unit :=
    match m with
    | MintTo a amount => check_owner ;; mint a amount   (** token.js:13-23 *)
    | Transfer a => check_owner ;; set (mk a)   (** 25-30 *)
    | Recover amount cur => check_owner ;; v <- get ;; send (owner v) amount cur   (** 32-37 *)
    end.
End Token.

(** ** transfer.js *)
Module Transfer.
  Record vars := mk { source : addr; target : addr }.
  Inductive method := Receive (currency : addr) | Cancel (currency : addr).
  Definition exec (m : method) : act vars unit :=
    match m with
    | Receive cur => v <- get ;; check_user (target v) ;; b <- balance cur ;; send (target v) b cur   (** transfer.js:11-18 *)
    | Cancel cur => v <- get ;; check_user (source v) ;; b <- balance cur ;; send (source v) b cur   (** 20-27 *)
    end.
End Transfer.

(** ** smart_wallet.js *)
Module Wallet.
  Record plan := mk_plan { p_amount : N; p_currency : addr; p_target : addr; p_interval : N; p_next : N; p_active : bool }.
  (** names of plans are keys of a map *)
  Record vars := mk { owner : addr; plans : bytes -> option plan }.
  Inductive method :=
  | Transfer (address : addr) (amount : N) (currency : addr)
  | AddPlan (name : bytes) (amount : N) (currency target : addr) (interval : N) (start : option N)
  | CancelPlan (name : bytes) | PlanPayment (name : bytes).
  Definition put (name : bytes) (p : plan) (f : bytes -> option plan) : bytes -> option plan := fun x => if addr_eqb x name then Some p else f x.
  Definition check_owner : act vars unit := v <- get ;; check_user (owner v).
  Definition exec (m : method) : act vars unit :=
    match m with
    | Transfer a amount cur => check_owner ;; send a amount cur   (** smart_wallet.js:15-20 *)
    | AddPlan name amount cur target interval start =>   (** 22-46 *)
      check_owner ;; v <- get ;;
      assert (match plans v name with Some p => negb (p_active p) | None => true end) ;;
      h <- height ;;
      set (mk (owner v) (put name (mk_plan amount cur target interval (match start with Some x => x | None => h end) true) (plans v)))
    | CancelPlan name =>   (** 48-56 *)
      check_owner ;; v <- get ;;
      match plans v name with
      | None => fail
      | Some p => set (mk (owner v) (put name (mk_plan (p_amount p) (p_currency p) (p_target p) (p_interval p) (p_next p) false) (plans v)))
      end
    | PlanPayment name =>   (** 58-70 *)
      v <- get ;;
      match plans v name with
      | None => fail
      | Some p =>
        assert (p_active p) ;; h <- height ;; assert (p_next p <=? h) ;;
        n <- uadd (p_next p) (p_interval p) ;;
        set (mk (owner v) (put name (mk_plan (p_amount p) (p_currency p) (p_target p) (p_interval p) n true) (plans v))) ;;
        send (p_target p) (p_amount p) (p_currency p)
      end
    end.
End Wallet.

(** ** nft.js, without the constructor [init_n], see [Template] *)
Module Nft.
  Record vars := mk { creator : addr; mint_height : option N }.
  Inductive method := MintTo (address : addr).
  Definition exec (m : method) : act vars unit :=
    match m with
    | MintTo a => v <- get ;; check_user (creator v) ;; assert (match mint_height v with None => true | Some _ => false end) ;;   (** nft.js:26-40, 47-50 *)
                  h <- height ;; set (mk (creator v) (Some h)) ;; mint a 1
    end.
End Nft.

(** ** template.js; [sha]: sha256; [verify msg key signature]: ecdsa_verify of the hash of [msg]; [name self serial]: the message *)
Module Template.
  Section CRYPTO.
    Variable sha : bytes -> addr.
    Variable verify : bytes -> bytes -> bytes -> bool.
    Variable message : addr -> N -> bytes.
    Record vars := mk { creator : addr; nfts : N -> option addr }.
    Inductive method := Add (serial : N) (creator_key signature : bytes).
    Definition self {S} : act S addr := fun e c => Some (e_self e, c).
    Definition exec (m : method) : act vars unit :=
      match m with
      | Add serial key sg =>   (** template.js:10-25 *)
        u <- user ;;
        match u with
        | None => fail
        | Some a =>
          assert (0 <? serial) ;; v <- get ;;
          assert (match nfts v serial with None => true | Some _ => false end) ;;
          assert (addr_eqb (sha key) (creator v)) ;;
          me <- self ;; assert (verify (message me serial) key sg) ;;
          set (mk (creator v) (fun n => if n =? serial then Some a else nfts v n))
        end
      end.
  End CRYPTO.
End Template.

(** ** plot_nft.js; server_url is left out *)
Module PlotNft.
  Definition UNLOCK_DELAY : N := 256.
  (** [unlock_height]: [None] is null *)
  Record vars := mk { owner : addr; target : option addr; unlock_height : option N }.
  Definition init (owner : addr) : vars := mk owner None (Some 0).   (** plot_nft.js:6-12 *)
  Inductive method := Lock (target_ : addr) | Unlock | ClaimAll (currency : addr) | Transfer (owner_ : addr) | SetServerUrl.
  Definition check_owner : act vars unit := v <- get ;; check_user (owner v).   (** 14-17 *)
  Definition is_locked : act vars bool := v <- get ;; h <- height ;; ret (match unlock_height v with None => true | Some u => h <? u end).   (** 19-26 *)
  (** 28-37: a call that does not change anything; the farmer that asks; the result before it is made a string ([None]: null) *)
  Definition mmx_reward_target (farmer : option addr) : act vars (option addr) :=
    v <- get ;; l <- is_locked ;; ret (if (l : bool) then target v else match farmer with Some f => Some f | None => Some (owner v) end).
  Definition exec (m : method) : act vars unit :=
    match m with
    | Lock t => check_owner ;; l <- is_locked ;; assert (negb l) ;; v <- get ;; set (mk (owner v) (Some t) None)   (** 39-48 *)
    | Unlock => check_owner ;; v <- get ;;   (** 50-57 *)
                match unlock_height v with
                | None => h <- height ;; u <- uadd h UNLOCK_DELAY ;; set (mk (owner v) (target v) (Some u))
                | Some _ => ret tt
                end
    | ClaimAll cur =>   (** 59-72 *)
      l <- is_locked ;; v <- get ;; u <- user ;;
      (if (l : bool) then assert (match u, target v with Some a, Some t => addr_eqb a t | None, None => true | _, _ => false end) else check_owner) ;;
      b <- balance cur ;;
      match u with Some a => send a b cur | None => if b =? 0 then ret tt else fail end
    | Transfer a => check_owner ;; v <- get ;; set (mk a (target v) (unlock_height v))   (** 74-79 *)
    | SetServerUrl => check_owner   (** 81-86 *)
    end.
End PlotNft.

(** ** virtual_plot.js; [bech32()]: the address of the native currency *)
Module VirtualPlot.
  Record vars := mk { owner : addr }.
  Inductive method := Deposit | Withdraw (amount : N) (currency : addr).
  Definition exec (m : method) : act vars unit :=
    match m with
    | Deposit => ret tt
    | Withdraw amount cur =>   (** virtual_plot.js:13-28 *)
      v <- get ;; check_user (owner v) ;;
      r <- (if addr_eqb cur native then x <- umul amount 90 ;; udiv x 100 else ret amount) ;;
      send (owner v) r cur ;;
      d <- usub amount r ;; send native d cur
    end.
End VirtualPlot.

(** ** offer.js *)
Module Offer.
  Definition FRACT_BITS : N := 64.
  Definition UPDATE_INTERVAL : N := 1080.
  Record vars := mk { owner : addr; partner : option addr; bid_currency : addr; ask_currency : addr; inv_price : N; last_update : N }.
  (** offer.js:12-26; [None]: an exception *)
  Definition init (owner bid ask : addr) (price : N) (partner : option addr) (h : N) : option vars :=
    if (0 <? price) && negb (addr_eqb bid ask) then Some (mk owner partner bid ask price h) else None.
  Inductive method := Deposit | Cancel | Withdraw | Recover (amount : N) (currency : addr) | SetPrice (new_price : N) | Trade (dst : addr) (price : N) | Accept (dst : addr) (price : N).
  Definition check_owner : act vars unit := v <- get ;; check_user (owner v).   (** 28-31 *)
  Definition check_partner : act vars unit := v <- get ;; match partner v with Some p => check_user p | None => ret tt end.   (** 33-38 *)
  Definition exec (m : method) : act vars unit :=
    match m with
    | Deposit => check_owner   (** 40-43 *)
    | Cancel => check_owner ;; v <- get ;; b <- balance (bid_currency v) ;; send (owner v) b (bid_currency v)   (** 45-50 *)
    | Withdraw => check_owner ;; v <- get ;; b <- balance (ask_currency v) ;; send (owner v) b (ask_currency v)   (** 52-57 *)
    | Recover amount cur => check_owner ;; v <- get ;; send (owner v) amount cur   (** 59-64 *)
    | SetPrice p =>   (** 66-80 *)
      check_owner ;; v <- get ;; h <- height ;; d <- usub h (last_update v) ;; assert (UPDATE_INTERVAL <=? d) ;; assert (0 <? p) ;;
      if p =? inv_price v then ret tt else set (mk (owner v) (partner v) (bid_currency v) (ask_currency v) p h)
    | Trade dst price =>   (** 82-94 *)
      check_partner ;; v <- get ;; assert (price =? inv_price v) ;; d <- deposit ;; assert (addr_eqb (fst d) (ask_currency v)) ;;
      x <- umul (snd d) (inv_price v) ;; bid <- ushr x FRACT_BITS ;; assert (0 <? bid) ;; send dst bid (bid_currency v)
    | Accept dst price =>   (** 96-114 *)
      check_partner ;; v <- get ;; assert (price =? inv_price v) ;; d <- deposit ;; assert (addr_eqb (fst d) (ask_currency v)) ;;
      x <- umul (snd d) (inv_price v) ;; x <- ushr x FRACT_BITS ;; b <- balance (bid_currency v) ;; let bid := N.min x b in assert (0 <? bid) ;;
      y <- ushl bid FRACT_BITS ;; y <- uadd y (inv_price v) ;; y <- usub y 1 ;; ask <- udiv y (inv_price v) ;;
      r <- usub (snd d) ask ;;
      send dst bid (bid_currency v) ;; send dst r (ask_currency v)
    end.
End Offer.

(** ** nft_offer.js *)
Module NftOffer.
  Record vars := mk { owner : addr; partner : option addr; nft : addr; ask_currency : addr; price : N; last_update : N }.
  Definition init (owner nft ask : addr) (price : N) (partner : option addr) (h : N) : option vars :=
    if (0 <? price) && negb (addr_eqb nft ask) then Some (mk owner partner nft ask price h) else None.   (** nft_offer.js:12-26 *)
  Inductive method := Deposit | Cancel | Recover (amount : N) (currency : addr) | SetPrice (new_price : N) | Accept (dst : addr) (price_ : N).
  Definition check_owner : act vars unit := v <- get ;; check_user (owner v).
  Definition check_partner : act vars unit := v <- get ;; match partner v with Some p => check_user p | None => ret tt end.
  Definition exec (m : method) : act vars unit :=
    match m with
    | Deposit => check_owner   (** 40-43 *)
    | Cancel => check_owner ;; v <- get ;; b <- balance (nft v) ;; send (owner v) b (nft v)   (** 45-50 *)
    | Recover amount cur => check_owner ;; v <- get ;; send (owner v) amount cur   (** 52-57 *)
    | SetPrice p =>   (** 59-73 *)
      check_owner ;; v <- get ;; h <- height ;; d <- usub h (last_update v) ;; assert (1080 <=? d) ;; assert (0 <? p) ;;
      if p =? price v then ret tt else set (mk (owner v) (partner v) (nft v) (ask_currency v) p h)
    | Accept dst p =>   (** 75-87 *)
      check_partner ;; v <- get ;; assert (p =? price v) ;; b <- balance (nft v) ;; assert (1 <=? b) ;;
      d <- deposit ;; assert (addr_eqb (fst d) (ask_currency v)) ;; assert (snd d =? price v) ;;
      send (owner v) (price v) (ask_currency v) ;; send dst 1 (nft v)
    end.
End NftOffer.
