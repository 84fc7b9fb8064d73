(** What a wallet is supposed to do with its coins. *)
Require Import List Arith NArith Bool.
From Verif Require Import WalletModel.
Import ListNotations.
Open Scope N_scope.

Definition sum (l : list N) : N := fold_right N.add 0 l.
(** what is moved in a currency: by inputs, by a list of (currency, amount) *)
Definition in_total (ins : list txin) (c : N) : N := sum (map i_amount (filter (fun i => i_contract i =? c) ins)).
Definition total (l : list (N * N)) (c : N) : N := sum (map snd (filter (fun x => fst x =? c) l)).
(** what inputs take from an address in a currency *)
Definition taken (ins : list txin) (k : key) : N := sum (map i_amount (filter (fun i => (i_address i =? fst k) && (i_contract i =? snd k)) ins)).
(** the outputs and deposits of a transaction *)
Definition need (t : tx) (c : N) : N := total (t_outputs t) c + total (t_deposits t) c.
(** all that the wallet could spend in a currency *)
Definition funds (balances : list (key * N)) (c : N) : N := sum (map snd (filter (fun x => snd (fst x) =? c) balances)).
(** a balance map: no key twice, 128 bit *)
Definition balances_ok (b : list (key * N)) : Prop := NoDup (map fst b) /\ Forall (fun x => snd x < 2^128) b.
(** inputs are kept: the same places in the same order, and no amount gets smaller; new inputs come behind *)
Definition grows (ins ins' : list txin) : Prop :=
  exists old new, ins' = old ++ new /\
    Forall2 (fun i i' => i_address i' = i_address i /\ i_contract i' = i_contract i /\ i_amount i <= i_amount i') ins old.

(** What happens to a wallet: it hears from the node about its balances, the transactions that were confirmed and the height; a transaction is marked as spent; *)
Inductive event :=
| Heard (balances : list (key * N)) (history : list N) (height : N)
| Marked (id expires : N) (fee : option N) (t : tx)
| Released
| Reset.
Definition happen (own : N -> bool) (w : cache) (e : event) : cache :=
  match e with
  | Heard b h n => update_cache b h n w
  | Marked id x f t => update_from own id x f t w
  | Released => release_all w
  | Reset => reset_cache
  end.
(** a transaction that the wallet has sent and not seen since *)
Record sent := mk_sent { s_id : N; s_expires : N; s_fee : N; s_tx : tx }.
(** the balances that were heard of last, and the transactions that neither were confirmed nor have expired since they were sent *)
Fixpoint known (events : list event) (balances : list (key * N)) (out : list sent) : list (key * N) * list sent :=
  match events with
  | [] => (balances, out)
  | Heard b h n :: es => known es b (filter (fun s => negb (existsb (N.eqb (s_id s)) h) && (n <=? s_expires s)) out)
  | Marked id x f t :: es =>
    known es balances
      (if existsb (fun s => s_id s =? id) out then out
       else match t_sender t, f with
            | Some _, None => out
            | _, _ => mk_sent id x (match f with Some v => v | None => 0 end) t :: out
            end)
  | Released :: es => known es balances out
  | Reset :: es => known es [] []
  end.
(** what a transaction takes from an address of the wallet: its inputs, and the fee if the address pays it *)
Definition commits (own : N -> bool) (s : sent) (k : key) : N :=
  (if own (fst k) then taken (t_inputs (s_tx s)) k else 0) +
  match t_sender (s_tx s) with Some a => if key_eqb (a, 0) k then s_fee s else 0 | None => 0 end.
Definition committed (own : N -> bool) (out : list sent) (k : key) : N := sum (map (fun s => commits own s k) out).
(** amounts are 128 bit, also when they are added up *)
Definition event_ok (own : N -> bool) (e : event) : Prop :=
  match e with
  | Heard b _ _ => balances_ok b
  | Marked id x f t => forall k, commits own (mk_sent id x (match f with Some v => v | None => 0 end) t) k < 2^128
  | _ => True
  end.
