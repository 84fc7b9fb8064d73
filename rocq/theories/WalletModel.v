(** How the wallet chooses inputs and keeps track of what it has spent: /repo/include/mmx/ECDSA_Wallet.h.
    Addresses and transaction ids are numbers, the native currency is 0.  Amounts are 128 bit and wrap around.  Keys, signatures, memos, notes, the expiry height and the
    version of a transaction are left out; a wallet is unlocked. *)
Require Import List Arith NArith Bool.
Import ListNotations.
Open Scope N_scope.

Definition add128 (x y : N) : N := (x + y) mod 2^128.
Definition sub128 (x y : N) : N := (x + 2^128 - y) mod 2^128.

(** std::map and std::unordered_map *)
Definition key : Type := N * N.   (** [address, currency] *)
Definition key_eqb (a b : key) : bool := (fst a =? fst b) && (snd a =? snd b).
Definition key_ltb (a b : key) : bool := (fst a <? fst b) || ((fst a =? fst b) && (snd a <? snd b)).
Section MAP.
  Context {K : Type}.
  Variables (eqb ltb : K -> K -> bool).
  Fixpoint get {V} (m : list (K * V)) (k : K) : option V := match m with [] => None | (k', v) :: m => if eqb k' k then Some v else get m k end.
  Fixpoint replace {V} (m : list (K * V)) (k : K) (v : V) : list (K * V) :=
    match m with [] => [] | (k', v') :: m' => if eqb k' k then (k', v) :: m' else (k', v') :: replace m' k v end.
  Fixpoint insert {V} (m : list (K * V)) (k : K) (v : V) : list (K * V) :=
    match m with [] => [(k, v)] | (k', v') :: m' => if ltb k k' then (k, v) :: m else (k', v') :: insert m' k v end.
  Definition put {V} (m : list (K * V)) (k : K) (v : V) : list (K * V) := match get m k with Some _ => replace m k v | None => insert m k v end.
  (** operator[] of a map of numbers *)
  Definition at0 (m : list (K * N)) (k : K) : N := match get m k with Some v => v | None => 0 end.
End MAP.
Definition bal (m : list (key * N)) (k : key) : N := at0 key_eqb m k.
Definition setb (m : list (key * N)) (k : key) (v : N) : list (key * N) := put key_eqb key_ltb m k v.

(** txin_t, txout_t, operation::Deposit and Transaction *)
Record txin := mk_in { i_address : N; i_contract : N; i_amount : N }.
Record tx := mk_tx { t_inputs : list txin; t_outputs : list (N * N); t_deposits : list (N * N); t_sender : option N }.

Section WALLET.
  (** [own a]: find_address(a) >= 0, ECDSA_Wallet.h:159-166; [arrange]: std::sort of 298-301, which may put equal balances in any order *)
  Variables (own : N -> bool) (arrange : list (N * N) -> list (N * N)).

  (** ECDSA_Wallet.h:250-281: existing inputs.  The result: the inputs, spent_map, what is left *)
  Fixpoint reuse (balance_map : list (key * N)) (currency : N) (ins : list txin) (spent : list (key * N)) (left : N) : list txin * list (key * N) * N :=
    match ins with
    | [] => ([], spent, left)
    | i :: rest =>
      if left =? 0 then (ins, spent, left)
      else
        let '(i', spent', left') :=
          if (i_contract i =? currency) && own (i_address i) then
            let k := (i_address i, i_contract i) in
            match get key_eqb balance_map k with
            | Some b =>
              let balance := match get key_eqb spent k with Some s => sub128 b s | None => b end in
              let amount := if left <=? balance then left else balance in
              if amount =? 0 then (i, spent, left)
              else (mk_in (i_address i) (i_contract i) (add128 (i_amount i) amount), setb spent k (add128 (bal spent k) amount), sub128 left amount)
            | None => (i, spent, left)
            end
          else (i, spent, left) in
        let '(rest', spent'', left'') := reuse balance_map currency rest spent' left' in (i' :: rest', spent'', left'')
    end.
  (** 283-296 *)
  Fixpoint addr_list (balance_map : list (key * N)) (spent : list (key * N)) (currency : N) : list (N * N) :=
    match balance_map with
    | [] => []
    | ((a, c), b) :: m =>
      if c =? currency then
        let balance := match get key_eqb spent (a, c) with Some s => sub128 b s | None => b end in
        if balance =? 0 then addr_list m spent currency else (a, balance) :: addr_list m spent currency
      else addr_list m spent currency
    end.
  (** 303-324: new inputs *)
  Fixpoint create (currency : N) (l : list (N * N)) (spent : list (key * N)) (left : N) : list txin * list (key * N) * N :=
    match l with
    | [] => ([], spent, left)
    | (a, balance) :: l =>
      if left =? 0 then ([], spent, left)
      else
        let amount := if left <? balance then left else balance in
        let '(ins, spent', left') := create currency l (setb spent (a, currency) (add128 (bal spent (a, currency)) amount)) (sub128 left amount) in
        (mk_in a currency amount :: ins, spent', left')
    end.
  (** 243-328; [None]: not enough funds.  254: return as soon as nothing is left; 283-324 would add nothing then. *)
  Definition gather_inputs (balance_map : list (key * N)) (ins : list txin) (spent : list (key * N)) (amount currency : N) : option (list txin * list (key * N)) :=
    let '(ins', spent', rem) := reuse balance_map currency ins spent amount in
    let '(new, spent'', left') := create currency (arrange (addr_list balance_map spent' currency)) spent' rem in
    if left' =? 0 then Some (ins' ++ new, spent'') else None.

  Definition addm (m : list (N * N)) (c v : N) : list (N * N) := put N.eqb N.ltb m c (add128 (at0 N.eqb m c) v).
  (** 472-491; 481-488: an input takes away what it covers *)
  Definition missing (t : tx) (deposit : list (N * N)) : list (N * N) :=
    let m := fold_left (fun m o => addm m (fst o) (snd o)) (t_outputs t) [] in
    let m := fold_left (fun m o => addm m (fst o) (snd o)) (t_deposits t) m in
    let m := fold_left (fun m i => let a := at0 N.eqb m (i_contract i) in
                                   put N.eqb N.ltb m (i_contract i) (if i_amount i <? a then sub128 a (i_amount i) else 0)) (t_inputs t) m in
    fold_left (fun m o => addm m (fst o) (snd o)) deposit m.
  (** 492-497 *)
  Fixpoint gather_all (balance_map : list (key * N)) (m : list (N * N)) (ins : list txin) (spent : list (key * N)) : option (list txin * list (key * N)) :=
    match m with
    | [] => Some (ins, spent)
    | (c, v) :: m =>
      if v =? 0 then gather_all balance_map m ins spent
      else match gather_inputs balance_map ins spent v c with
           | Some (ins', spent') => gather_all balance_map m ins' spent'
           | None => None
           end
    end.
  (** 506-521: the address with the largest balance; [best]: max_address, max_amount *)
  Fixpoint pick_sender (balance_map spent : list (key * N)) (best : N * N) : N * N :=
    match balance_map with
    | [] => best
    | ((a, c), b) :: m =>
      if c =? 0 then
        let balance := match get key_eqb spent (a, c) with Some s => sub128 b s | None => b end in
        pick_sender m spent (if snd best <? balance then (a, balance) else best)
      else pick_sender m spent best
    end.
  (** 444-529.  [fee]: the static fee of the transaction with these inputs and cost_to_fee, which fails when a fee is too large; [option_sender]: options.sender.
      [None]: an exception. *)
  Definition complete (fee : tx -> option N) (option_sender : option N) (balance_map : list (key * N)) (t : tx) (deposit : list (N * N)) : option tx :=
    match gather_all balance_map (missing t deposit) (t_inputs t) [] with
    | None => None
    | Some (ins, spent) =>
      let t' := mk_tx ins (t_outputs t) (t_deposits t) (t_sender t) in
      match fee t' with
      | None => None
      | Some static_fee =>
        match t_sender t, option_sender with
        | Some _, _ => Some t'
        | None, Some s => Some (mk_tx ins (t_outputs t) (t_deposits t) (Some s))
        | None, None =>
          let '(a, m) := pick_sender balance_map spent (0, 0) in
          if static_fee <=? m then Some (mk_tx ins (t_outputs t) (t_deposits t) (Some a)) else None
        end
      end
    end.

  (** The cache: ECDSA_Wallet.h:554-558 *)
  Record cache := mk_cache {
    c_balance : list (key * N); c_reserved : list (key * N);
    c_pending_tx : list (N * N); c_pending : list (N * list (key * N)) }.
  Definition clamped_sub (m : list (key * N)) (k : key) (v : N) : list (key * N) := setb m k (bal m k - v).   (** utils.h:405-416; N subtraction stops at 0 *)
  (** 191-220 *)
  Definition update_cache (balances : list (key * N)) (history : list N) (height : N) (w : cache) : cache :=
    let gone id := existsb (fun x => (fst x =? id) && (snd x <? height)) (c_pending_tx w) || existsb (N.eqb id) history in
    let pending_tx := filter (fun x => negb (gone (fst x))) (c_pending_tx w) in
    let pending := filter (fun x => negb (gone (fst x))) (c_pending w) in
    let b := fold_left (fun b x => clamped_sub b (fst x) (snd x)) (c_reserved w) balances in
    let b := fold_left (fun b p => fold_left (fun b x => clamped_sub b (fst x) (snd x)) (snd p) b) pending b in
    mk_cache b (c_reserved w) pending_tx pending.
  Definition pend (p : list (N * list (key * N))) (id : N) (k : key) (v : N) : list (N * list (key * N)) :=
    let m := match get N.eqb p id with Some m => m | None => [] end in
    put N.eqb N.ltb p id (setb m k (add128 (bal m k) v)).
  (** 222-241; [static_fee]: of the transaction, [None]: cost_to_fee fails, nothing is changed *)
  Definition update_from (id expires : N) (static_fee : option N) (t : tx) (w : cache) : cache :=
    match get N.eqb (c_pending_tx w) id with
    | Some _ => w
    | None =>
      match t_sender t, static_fee with
      | Some _, None => w
      | s, f =>
        let '(b, p) :=
          match s, f with
          | Some a, Some v => (clamped_sub (c_balance w) (a, 0) v, pend (c_pending w) id (a, 0) v)
          | _, _ => (c_balance w, c_pending w)
          end in
        let '(b, p) :=
          fold_left (fun bp i =>
            if own (i_address i)
            then (clamped_sub (fst bp) (i_address i, i_contract i) (i_amount i), pend (snd bp) id (i_address i, i_contract i) (i_amount i))
            else bp) (t_inputs t) (b, p) in
        mk_cache b (c_reserved w) (put N.eqb N.ltb (c_pending_tx w) id expires) p
      end
    end.
  Definition release_all (w : cache) : cache := mk_cache (c_balance w) [] (c_pending_tx w) (c_pending w).   (** /repo/src/Wallet.cpp:621-628 *)
  Definition reset_cache : cache := mk_cache [] [] [] [].   (** 542-550 *)
End WALLET.
