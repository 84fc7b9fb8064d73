(** Model of multi_table (include/mmx/multi_table.h) on top of the table of DbModel.v and its iterator (DbIterModel.v).
    Keys are byte strings written and read by [write] and [read] (the classes uint_multi_table, hash_multi_table and
    hash_uint_multi_table, see KeysModel.v) and compared by the default comparator. [kc]: operator== and operator< of the
    key type. [imax]: std::numeric_limits<I>::max(). Values are read back as they were written. [None]: an exception
    other than the one of insert_many, or fuel exhausted; shown not to happen. *)
Require Import List NArith Bool Arith.
Require Import Verif.OrdLib Verif.BytesLib Verif.DbModel Verif.DbIterModel.
Import ListNotations.
Open Scope N_scope.

Section Multi.
  Context {K V : Type} (kc : K -> K -> comparison) (write : K * N -> (list N)) (read : (list N) -> option (K * N)) (imax : N).
  Notation table := (@table (list N) V).
  Notation sys := (@sys (list N) V).
  Notation iter := (@iter (list N) V).

  (** include/mmx/multi_table.h:44-58: the index of the next value of [k] *)
  Definition m_index (t : table) (k : K) : option N :=
    match seek_prev default_cmp t (write (k, imax)) with
    | None => None
    | Some i =>
      match current i with
      | None => Some 0
      | Some (kb, _) =>
        match read kb with
        | None => None
        | Some (k', ix) => Some (if keqb kc k' k then (ix + 1) mod (imax + 1) else 0)
        end
      end
    end.

  (** include/mmx/multi_table.h:59-65; [false]: "key space overflow", after the values before have been inserted *)
  Fixpoint m_insert_from (lf : nat) (s : sys) (k : K) (ix : N) (vs : list V) : option (sys * bool) :=
    match vs with
    | [] => Some (s, true)
    | v :: vs' =>
      if ix =? imax then Some (s, false) else
      match sys_step default_cmp lf s (EvOp (OInsert (write (k, ix)) v)) with
      | None => None
      | Some s' => m_insert_from lf s' k (ix + 1) vs'
      end
    end.
  (** include/mmx/multi_table.h:41-66 (insert_many); insert(key, value) is insert_many(key, {value}), 36-39 *)
  Definition m_insert_many (lf : nat) (s : sys) (k : K) (vs : list V) : option (sys * bool) :=
    match m_index (s_tab s) k with
    | None => None
    | Some ix => m_insert_from lf s k ix vs
    end.

  (** the loops of find and find_range: read on until the iterator is invalid or [stop] holds of the key *)
  Fixpoint m_collect (fuel : nat) (t : table) (stop : K -> bool) (i : iter) : option (list (K * V)) :=
    match current i with
    | None => Some []
    | Some (kb, v) =>
      match read kb with
      | None => None
      | Some (k', _) =>
        if stop k' then Some [] else
        match fuel with
        | O => None
        | S fuel' =>
          match it_next default_cmp t i with
          | None => None
          | Some i' => match m_collect fuel' t stop i' with Some l => Some ((k', v) :: l) | None => None end
          end
        end
      end
    end.
  (** number of records in the table: no iteration is longer *)
  Definition m_fuel (t : table) : nat :=
    (length (flat_map (@b_entries (list N) V) (t_blocks t)) + length (t_mem t))%nat.

  (** include/mmx/multi_table.h:74-95 (find), 141-164 (find_range, with the keys): from (begin, 0) on *)
  Definition m_read_from (t : table) (k : K) (stop : K -> bool) : option (list (K * V)) :=
    match seek default_cmp t (write (k, 0)) with
    | None => None
    | Some i => m_collect (m_fuel t) t stop i
    end.
  Definition m_find (t : table) (k : K) (greater_equal : bool) : option (list V) :=
    option_map (map snd) (m_read_from t k (fun k' => negb greater_equal && negb (keqb kc k' k))).
  Definition m_find_range (t : table) (b e : K) : option (list (K * V)) :=
    m_read_from t b (fun k' => match kc k' e with Lt => false | _ => true end).

  (** include/mmx/multi_table.h:97-119 (find_last) *)
  Fixpoint m_last (limit : nat) (t : table) (k : K) (i : iter) : option (list V) :=
    match current i, limit with
    | Some (kb, v), S limit' =>
      match read kb with
      | None => None
      | Some (k', _) =>
        if keqb kc k' k then
          match it_prev default_cmp t i with
          | None => None
          | Some i' => option_map (cons v) (m_last limit' t k i')
          end
        else Some []
      end
    | _, _ => Some []
    end.
  Definition m_find_last (t : table) (k : K) (limit : nat) : option (list V) :=
    match seek_prev default_cmp t (write (k, imax)) with
    | None => None
    | Some i => m_last limit t k i
    end.

  (** include/mmx/multi_table.h:166-171 (scan) with a callback that never stops *)
  Definition m_scan (t : table) : option (list (K * V)) :=
    match seek_begin default_cmp t with
    | None => None
    | Some i => m_collect (m_fuel t) t (fun _ => false) i
    end.

  (** calls a user can make between which the process may also die *)
  Inductive mcall :=
  | MInsert (k : K) (vs : list V)
  | MCommit (n : N) (fl : bool)
  | MRevert (n : N)
  | MRestart (lost : nat) (opens : list (nat * nat)).

  (** the second component: insert_many did not throw *)
  Definition m_step (lf : nat) (s : sys) (c : mcall) : option (sys * bool) :=
    let plain ev := match sys_step default_cmp lf s ev with Some s' => Some (s', true) | None => None end in
    match c with
    | MInsert k vs => m_insert_many lf s k vs
    | MCommit n fl => plain (EvOp (OCommit n fl))
    | MRevert n => plain (EvOp (ORevert n))
    | MRestart n opens => plain (EvCrash None 0 n opens)
    end.
  Fixpoint m_run (lf : nat) (s : sys) (cs : list mcall) : option (sys * list bool) :=
    match cs with
    | [] => Some (s, [])
    | c :: cs' =>
      match m_step lf s c with
      | None => None
      | Some (s', b) => match m_run lf s' cs' with Some (s'', bs) => Some (s'', b :: bs) | None => None end
      end
    end.
End Multi.
