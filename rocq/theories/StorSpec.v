(** What a stack of storage layers is: a stack of complete snapshots of the storage.  Independent of how layers are kept. *)
Require Import List NArith Bool.
From Verif Require Import BytesLib VarModel VarSpec EngineModel StorModel.
Import ListNotations.
Open Scope N_scope.

(** everything that can be read *)
Record view := mk_view { vw_read : addr -> N -> option svar; vw_entry : addr -> N -> N -> option svar;
                         vw_balance : addr -> addr -> option N }.
Definition empty_view := mk_view (fun _ _ => None) (fun _ _ _ => None) (fun _ _ => None).
Definition put_var (w : view) (c : addr) (a : N) (v : svar) : view :=
  mk_view (fun c' a' => if addr_eqb c' c && (a' =? a) then Some v else vw_read w c' a') (vw_entry w) (vw_balance w).
Definition put_entry (w : view) (c : addr) (a k : N) (v : svar) : view :=
  mk_view (vw_read w) (fun c' a' k' => if addr_eqb c' c && (a' =? a) && (k' =? k) then Some v else vw_entry w c' a' k')
          (vw_balance w).
Definition put_balance (w : view) (c cur : addr) (n : N) : view :=
  mk_view (vw_read w) (vw_entry w) (fun c' cur' => if addr_eqb c' c && addr_eqb cur' cur then Some n else vw_balance w c' cur').
(** the database keeps no reference counts *)
Definition no_rc (v : svar) : svar := mk_svar 0 (sv_fl v) (sv_val v).

(** The snapshots, newest first; the last one is the database.  A new layer starts as a copy; commit replaces the snapshot below,
    drop forgets.  When the database is reached reference counts are dropped and balances are left alone (the node applies
    them on its own). *)
Definition in_db (w : view) (old : view) : view :=
  mk_view (fun c a => option_map no_rc (vw_read w c a)) (fun c a k => option_map no_rc (vw_entry w c a k)) (vw_balance old).
Definition on_top (f : view -> view) (ws : list view) : list view :=
  match ws with
  | [w] => [in_db (f w) w]
  | w :: ws => f w :: ws
  | [] => []
  end.
Definition sp_do (o : sop) (ws : list view) : list view :=
  match o, ws with
  | OWrite c a v, _ => on_top (fun w => put_var w c a v) ws
  | OEntry c a k v, _ => on_top (fun w => put_entry w c a k v) ws
  | OBalance c cur n, _ => on_top (fun w => put_balance w c cur n) ws
  | OGet _ _, _ => ws
  | OOpen, w :: ws => w :: w :: ws
  | OCommit, [w; db] => [in_db w db]
  | OCommit, w :: _ :: ws => w :: ws
  | ODrop, _ :: w :: ws => w :: ws
  | _, _ => ws
  end.
Definition sp_run (l : list sop) (ws : list view) : list view := fold_left (fun ws o => sp_do o ws) l ws.

(** variables as the engine writes them *)
Definition svar_ok (v : svar) : Prop := sv_rc v < 2 ^ 32 /\ val_ok (sv_val v).
Definition not_array (v : val) : Prop := match v with VArray _ _ => False | _ => True end.
Definition is_key (v : svar) : Prop := f_key (sv_fl v) = true.
(** What the engine keeps to: contracts are among [U]; keys are constant, hence never overwritten; a key is only added when
    the storage does not have it; there is a layer to commit or to drop *)
Definition legal (U : addr -> Prop) (ws : list view) (o : sop) : Prop :=
  match o with
  | OWrite c a v =>
    U c /\ 0 < a < 2 ^ 64 /\ svar_ok v
    /\ (forall w k, hd_error ws = Some w -> vw_read w c a = Some k -> ~ is_key k)
    /\ (is_key v -> not_array (sv_val v)
        /\ forall w a' k, hd_error ws = Some w -> vw_read w c a' = Some k -> is_key k -> same_value (sv_val k) (sv_val v) -> a' = a)
  | OEntry c a k v => U c /\ a < 2 ^ 64 /\ k < 2 ^ 64 /\ svar_ok v
  | OCommit | ODrop => (2 <= length ws)%nat
  | _ => True
  end.
Fixpoint legal_run (U : addr -> Prop) (ws : list view) (l : list sop) : Prop :=
  match l with [] => True | o :: l => legal U ws o /\ legal_run U (sp_do o ws) l end.

(** contracts in the database are told apart by the first 20 bytes of their addresses *)
Definition distinct_prefix (U : addr -> Prop) : Prop :=
  (forall c, U c -> length c = 32%nat) /\ forall c c', U c -> U c' -> firstn 20 c = firstn 20 c' -> c = c'.

(** the address a key is kept at, zero if the storage does not have it *)
Definition key_address (w : view) (c : addr) (v : val) (a : N) : Prop :=
  (a = 0 /\ forall a' k, a' < 2 ^ 64 -> vw_read w c a' = Some k -> is_key k -> sv_val k <> v)
  \/ (0 < a /\ exists k, vw_read w c a = Some k /\ is_key k /\ sv_val k = v).
(** reading from [s] shows [w] *)
Definition shows (U : addr -> Prop) (s : storage) (w : view) : Prop :=
  (forall c a, U c -> a < 2 ^ 64 -> s_read s c a = vw_read w c a)
  /\ (forall c a k, U c -> a < 2 ^ 64 -> k < 2 ^ 64 -> s_entry s c a k = vw_entry w c a k)
  /\ (forall c cur, fst (s_get_balance s c cur) = vw_balance w c cur)
  /\ (forall c v, U c -> val_ok v -> not_array v -> key_address w c v (s_lookup s c v)).
Fixpoint layers (s : storage) : list storage := match s with SDb _ => [s] | SCache _ b => s :: layers b end.
