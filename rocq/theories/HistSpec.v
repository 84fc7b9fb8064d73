(** What the theorems about histories talk about *)
Require Import List NArith ZArith Bool Sorted Permutation.
From Verif Require Import BytesLib OrdLib VarModel EngineModel ExecModel StorModel TxModel TxSpec BlockModel BlockSpec HistModel.
Import List ListNotations.
Open Scope N_scope.

(** The log of payments: at most one row for a key, in the order of keys; a row is found under the address and the height of its entry;
    heights and numbers within a block are below 2^32 - 1, and there are less than 2^31 rows. *)
Record log_ok (log : list (key * entry)) : Prop := mk_log_ok {
  lg_sorted : asorted key_cmp log;
  lg_rows : forall k e, In (k, e) log -> fst k = (e_address e, e_height e);
  lg_tickets : forall k e, In (k, e) log -> snd k < 2 ^ 32 - 1;
  lg_size : N.of_nat (List.length log) < 2 ^ 31 }.
(** The log of memos: a row for each payment with a memo, under a hash of its address and memo *)
Record memos_ok (H : addr -> bytes -> addr) (log : list (key * entry)) (memos : list (key * addr)) : Prop := mk_memos_ok {
  mm_sorted : asorted key_cmp memos;
  mm_rows : forall p h t a, In (((p, h), t), a) memos <-> exists e m, In (((a, h), t), e) log /\ e_memo e = Some m /\ p = H a m;
  mm_size : N.of_nat (List.length memos) < 2 ^ 31 }.

(** what a query asks for *)
Definition wanted (addresses : list addr) (q : query) (e : entry) : Prop :=
  In (e_address e) addresses /\ q_since q <= e_height e <= q_until q /\
  (forall k, q_kind q = Some k -> e_kind e = k) /\
  (q_currency q <> [] -> In (e_contract e) (q_currency q)).
(** filter.limit is a signed 32 bit number *)
Definition limit_ok (q : query) : Prop := (- 2 ^ 31 <= q_limit q < 2 ^ 31)%Z.

(** rows of a log: each at most once, exactly those with a property; only such *)
Definition rows_are (log rows : list (key * entry)) (P : entry -> Prop) : Prop :=
  NoDup rows /\ forall k e, In (k, e) rows <-> In (k, e) log /\ P e.
Definition rows_among (log rows : list (key * entry)) (P : entry -> Prop) : Prop :=
  NoDup rows /\ forall k e, In (k, e) rows -> In (k, e) log /\ P e.

(** With a limit, an entry is shown unless there are that many entries of later blocks. *)
Definition later (l : list entry) (e : entry) : N := N.of_nat (List.length (filter (fun x => e_height e <? e_height x) l)).
Definition shown (limit : Z) (l : list entry) : list entry :=
  if (limit <? 0)%Z then l else filter (fun e => later l e <? Z.to_N limit) l.
Definition newest_first (l : list entry) : Prop := StronglySorted (fun x y => e_height y <= e_height x) l.

(** ** Balances and history *)
Definition spent (k : kind) : bool := match k with SPEND | TXFEE => true | _ => false end.
Definition received_sum (a cur : addr) (l : list entry) : N :=
  fold_right (fun e s => (if addr_eqb (e_address e) a && addr_eqb (e_contract e) cur && negb (spent (e_kind e)) then e_amount e else 0) + s) 0 l.
Definition spent_sum (a cur : addr) (l : list entry) : N :=
  fold_right (fun e s => (if addr_eqb (e_address e) a && addr_eqb (e_contract e) cur && spent (e_kind e) then e_amount e else 0) + s) 0 l.

(** Chains: balances, log of payments, log of memos and height after a genesis block, which only gives, and after every valid block on top.
    [H]: the hash of an address and a memo.  Everything but balances may differ from block to block. *)
Inductive chain (H : addr -> bytes -> addr) : balances -> list (key * entry) -> list (key * addr) -> N -> Prop :=
  | chain_first id outs : (forall a cur, out_to a cur outs < 2 ^ 128) ->
      let es := map (entry_out id 0 RECEIVE) outs in
      chain H (apply_balances (fun _ _ => None) [] outs) (write_log 0 es []) (write_memos H 0 es []) 0
  | chain_next n P d id bl s log memos h : chain H (d_bal d) log memos h -> ledger_ok n d (b_txs bl) -> validate_block n P d bl = Some s ->
      (forall a cur, bal0 (d_bal d) a cur + out_to a cur (outs_of P bl) < 2 ^ 128) ->
      let es := block_entries P id (h + 1) bl in
      chain H (apply_balances (d_bal d) (ins_of (b_txs bl)) (outs_of P bl)) (write_log 0 es log) (write_memos H 0 es memos) (h + 1).
