(** Offers that are made, traded with and accepted by the wallet: src/Wallet.cpp:316-395, and what the node tells about one: src/Node_api.cpp:992-1022, src/offer_data_t.cpp.
    The contract is that of CtrModel.Offer.  Of transactions only the operation and its deposit are modelled. *)
Require Import List Arith NArith Bool.
From Verif Require Import BytesLib EngineModel CtrModel OfqModel.
Import ListNotations.
Open Scope N_scope.

(** src/Wallet.cpp:316-341: the arguments of init and what is deposited; [None]: an exception.  Amounts are below 2^128. *)
Record made := mk_made { m_owner : addr; m_bid : addr; m_ask : addr; m_price : N; m_deposit : addr * N }.
Definition make_offer (owner : addr) (bid_amount : N) (bid_currency : addr) (ask_amount : N) (ask_currency : addr) : option made :=
  if (bid_amount =? 0) || (ask_amount =? 0) then None
  else let inv_price := bid_amount * 2 ^ 64 / ask_amount in
       if inv_price / 2 ^ 128 =? 0 then Some (mk_made owner bid_currency ask_currency inv_price (bid_currency, bid_amount)) else None.
(** the contract when the transaction is executed at height [h]: init without a partner (an empty argument), and the deposit; [None]: the transaction fails *)
Definition deployed (o : made) (h : N) : option (Offer.vars * (addr -> N)) :=
  match Offer.init (m_owner o) (m_bid o) (m_ask o) (m_price o) None h with
  | Some v => Some (v, credit (fun _ => 0) (fst (m_deposit o)) (snd (m_deposit o)))
  | None => None
  end.
(** src/Node_api.cpp:992-1022, of which only the currency and the amount that are asked for are used; [None]: an exception *)
Definition told (x : Offer.vars * (addr -> N)) : option (addr * N) :=
  let v := fst x in
  if 2 ^ 128 <=? Offer.inv_price v then None
  else match get_ask_amount (snd x (Offer.bid_currency v)) (Offer.inv_price v) with Some n => Some (Offer.ask_currency v, n) | None => None end.
(** src/Wallet.cpp:365-379: the method and what is deposited; [dst]: an address of the wallet *)
Definition offer_trade (x : Offer.vars * (addr -> N)) (amount : N) (dst : addr) (price : N) : option (Offer.method * (addr * N)) :=
  match told x with Some (cur, _) => Some (Offer.Trade dst price, (cur, amount)) | None => None end.
(** 381-395 *)
Definition accept_offer (x : Offer.vars * (addr -> N)) (dst : addr) (price : N) : option (Offer.method * (addr * N)) :=
  match told x with Some (cur, n) => Some (Offer.Accept dst price, (cur, n)) | None => None end.
