(** What the theorems about the virtual machine talk about, independent of how instructions are executed *)
Require Import List NArith Bool.
From Verif Require Import BytesLib OrdLib VarModel InstrModel EngineModel.
Import ListNotations.
Open Scope N_scope.

(** sum of the amounts in one currency *)
Definition out_sum (cur : addr) (l : list txout) : N :=
  fold_right (fun o n => (if addr_eqb (to_currency o) cur then to_amount o else 0) + n) 0 l.
(** the balance of a contract as a storage cache on top of [bk] shows it *)
Definition balance_of (bk : backend) (w : world) (c cur : addr) : N :=
  match ram_balance (w_ram w) c cur with
  | Some n => n
  | None => match bk_balance bk c cur with Some n => n | None => 0 end
  end.
(** what was spent so far by one contract, and by all, in one currency *)
Definition spent (w : world) (c cur : addr) : N :=
  fold_right (fun e n => (if bal_eqb (fst e) (c, cur) then snd e else 0) + n) 0 (w_spend w).
Definition total_spent (w : world) (cur : addr) : N :=
  fold_right (fun e n => (if addr_eqb (snd (fst e)) cur then snd e else 0) + n) 0 (w_spend w).
(** what one contract has in storage *)
Definition same_storage (bk : backend) (c : addr) (w w' : world) : Prop :=
  (forall a, cache_read bk (w_ram w') c a = cache_read bk (w_ram w) c a) /\
  (forall a k, cache_entry bk (w_ram w') c a k = cache_entry bk (w_ram w) c a k) /\
  (forall v, cache_lookup bk (w_ram w') c v = cache_lookup bk (w_ram w) c v).
