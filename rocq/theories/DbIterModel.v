(** Model of Table::Iterator, src/DataBase.cpp:753-1002 and include/mmx/DataBase.h:121-180.
    An iterator keeps, in a map ordered by key and version, one cursor for every sorted source of records: every
    block on disk and the memory index. While an iterator exists the table is write locked (753-770), so the model is a
    function of a fixed table. [None] as a result stands for an exception. *)
Require Import List NArith Bool Arith.
Require Import Verif.OrdLib Verif.DbModel.
Import ListNotations.
Open Scope N_scope.

Section Iter.
  Context {K V : Type} (kcmp : K -> K -> comparison).
  Notation entry := (@entry K V).
  Notation block := (@block K V).
  Notation table := (@table K V).

  (** src/DataBase.cpp:783 and 917: direction > 0 and < 0 *)
  Inductive dir := Fwd | Bwd.
  (** include/mmx/DataBase.h (pointer_t): block (or the memory index when there is none), position in the index of the
      source, and the value. The block is named by its number in the list of blocks, the iterator of the memory index by
      its distance from begin(). *)
  Record pointer := mk_ptr { p_block : option nat; p_pos : nat; p_value : V }.
  (** include/mmx/DataBase.h (Iterator): direction ([None]: 0) and block_map *)
  Record iter := mk_iter { it_dir : option dir; it_map : list ((K * N) * pointer) }.

  (** src/DataBase.cpp:773-784 (compare_t): by key in the direction of the iteration, then newer versions first *)
  Definition bmcmp (d : dir) : K * N -> K * N -> comparison :=
    lexcmp (match d with Fwd => kcmp | Bwd => flipcmp kcmp end) (flipcmp N.compare).

  (** src/DataBase.cpp:786-814 (is_valid, current, key, value) *)
  Definition it_valid (i : iter) : bool :=
    match it_dir i, it_map i with Some _, _ :: _ => true | _, _ => false end.
  Definition current (i : iter) : option (K * V) :=
    match it_dir i, it_map i with Some _, (kv, p) :: _ => Some (fst kv, p_value p) | _, _ => None end.

  (** record at a position of the memory index: iter->first, iter->second *)
  Definition mem_at (t : table) (pos : nat) : option entry :=
    match nth_error (t_idx t) pos with Some (k, (v, n)) => Some ((k, n), v) | None => None end.
  (** read_entry_at(block->file, block->index[pos], ..) *)
  Definition src_at (t : table) (s : option nat) (pos : nat) : option entry :=
    match s with
    | Some j => match nth_error (t_blocks t) j with Some b => entry_at b pos | None => None end
    | None => mem_at t pos
    end.
  (** block->index.size(), and the distance of mem_index.end() *)
  Definition src_size (t : table) (s : option nat) : nat :=
    match s with
    | Some j => match nth_error (t_blocks t) j with Some b => length (b_index b) | None => 0%nat end
    | None => length (t_idx t)
    end.

  (** block_map\[key\] = pointer *)
  Definition bm_put (d : dir) (e : entry) (s : option nat) (pos : nat) (m : list ((K * N) * pointer)) :=
    aset (bmcmp d) (fst e) (mk_ptr s pos (snd e)) m.
  (** block_map.erase(iter) *)
  Definition bm_erase (d : dir) (kv : K * N) (m : list ((K * N) * pointer)) :=
    filter (fun x => match bmcmp d kv (fst x) with Eq => false | _ => true end) m.

  (** src/DataBase.cpp:828-846 and 868-885: the body of the loop: the cursor moves on in its source, if it can.
      [Some None]: the source is exhausted. *)
  Definition succ_pos (d : dir) (size pos : nat) : option nat :=
    match d with
    | Fwd => if (pos + 1 <? size)%nat then Some (pos + 1)%nat else None
    | Bwd => match pos with O => None | S pos' => Some pos' end
    end.
  Definition step_one (d : dir) (t : table) (kv : K * N) (p : pointer) (m : list ((K * N) * pointer)) :
      option (list ((K * N) * pointer)) :=
    match succ_pos d (src_size t (p_block p)) (p_pos p) with
    | None => Some (bm_erase d kv m)
    | Some pos =>
      match src_at t (p_block p) pos with
      | None => None
      | Some e => Some (bm_erase d kv (bm_put d e (p_block p) pos m))
      end
    end.

  (** src/DataBase.cpp:827-848 and 867-887: while(iter != end && iter->first.first == prev). The iterator of the loop
      is always the first element: what is inserted sorts behind the key. The fuel is the number of elements. *)
  Fixpoint step_loop (fuel : nat) (d : dir) (t : table) (prev : K) (m : list ((K * N) * pointer)) :
      option (list ((K * N) * pointer)) :=
    match m with
    | [] => Some []
    | (kv, p) :: _ =>
      if keqb kcmp (fst kv) prev then
        match fuel with
        | O => None
        | S fuel' => match step_one d t kv p m with Some m' => step_loop fuel' d t prev m' | None => None end
        end
      else Some m
    end.

  (** the third argument of seek: mode < 0, 0, > 0 *)
  Inductive mode := MPrev | MAt | MNext.

  (** src/DataBase.cpp:957-984: where the cursor of one block goes; [Some None]: continue (no cursor) *)
  Definition seek_block (b : block) (key : option K) (md : mode) : option (option (nat * entry)) :=
    let size := length (b_index b) in
    match (match key with
           | Some k => match lower_bound kcmp b k with Some (pos, res, _) => Some (pos, res) | None => None end
           | None => Some (match md with MPrev => size | _ => 0%nat end, match md with MAt => entry_at b 0 | _ => None end)
           end) with
    | None => None
    | Some (pos, res) =>
      match md with
      | MAt => Some (match res with Some e => Some (pos, e) | None => None end)
      | MPrev => match pos with
                 | O => Some None
                 | S pos' => match entry_at b pos' with Some e => Some (Some (pos', e)) | None => None end
                 end
      | MNext => if (size <=? pos + 1)%nat then Some None
                 else match entry_at b (pos + 1) with Some e => Some (Some ((pos + 1)%nat, e)) | None => None end
      end
    end.

  (** distance of mem_index.lower_bound(key) from begin() *)
  Fixpoint lower_pos (k : K) (l : list (K * (V * N))) : nat :=
    match l with
    | [] => 0%nat
    | (k', _) :: l' => match kcmp k' k with Lt => S (lower_pos k l') | _ => 0%nat end
    end.

  (** src/DataBase.cpp:919-944: where the cursor of the memory index goes *)
  Definition seek_mem (t : table) (key : option K) (md : mode) : option (nat * entry) :=
    let size := length (t_idx t) in
    let pos := match key with
               | Some k => lower_pos k (t_idx t)
               | None => match md with MPrev => size | _ => 0%nat end
               end in
    let pos' := match md with
                | MAt => pos
                | MPrev => match pos with O => size | S p => p end
                | MNext => if (pos <? size)%nat then (pos + 1)%nat else pos
                end in
    match mem_at t pos' with Some e => Some (pos', e) | None => None end.

  Definition dir_of (md : mode) : dir := match md with MPrev => Bwd | _ => Fwd end.

  (** src/DataBase.cpp:948-985: the loop over the blocks, [j] is the number of the next one *)
  Fixpoint seek_blocks (t : table) (bs : list block) (j : nat) (key : option K) (md : mode)
      (m : list ((K * N) * pointer)) : option (list ((K * N) * pointer)) :=
    match bs with
    | [] => Some m
    | b :: bs' =>
      match seek_block b key md with
      | None => None
      | Some None => seek_blocks t bs' (S j) key md m
      | Some (Some (pos, e)) => seek_blocks t bs' (S j) key md (bm_put (dir_of md) e (Some j) pos m)
      end
    end.

  (** src/DataBase.cpp:914-945 *)
  Definition it_seek (t : table) (key : option K) (md : mode) : option iter :=
    match seek_blocks t (t_blocks t) 0 key md [] with
    | None => None
    | Some m =>
      Some (mk_iter (Some (dir_of md))
        (match seek_mem t key md with
         | Some (pos, e) => bm_put (dir_of md) e None pos m
         | None => m
         end))
    end.

  (** src/DataBase.cpp:816-851 (prev) and 853-893 (next) *)
  Definition it_move (d : dir) (t : table) (i : iter) : option iter :=
    match it_dir i, it_map i with
    | Some d', (kv, p) :: _ =>
      match d, d' with
      | Fwd, Fwd | Bwd, Bwd =>
        match step_loop (length (it_map i)) d t (fst kv) (it_map i) with
        | Some m => Some (mk_iter (Some d) m)
        | None => None
        end
      | Fwd, Bwd => it_seek t (Some (fst kv)) MNext
      | Bwd, Fwd => it_seek t (Some (fst kv)) MPrev
      end
    | _, _ => None
    end.
  Definition it_next := it_move Fwd.
  Definition it_prev := it_move Bwd.

  (** src/DataBase.cpp:895-912 and 987-1002 *)
  Definition seek_begin (t : table) := it_seek t None MAt.
  Definition seek_last (t : table) := it_seek t None MPrev.
  Definition seek (t : table) (k : K) := it_seek t (Some k) MAt.
  Definition seek_next (t : table) (k : K) := it_seek t (Some k) MNext.
  Definition seek_prev (t : table) (k : K) := it_seek t (Some k) MPrev.
  Definition seek_for_prev (t : table) (k : K) : option iter :=
    match seek t k with
    | None => None
    | Some i =>
      match current i with
      | Some (k', _) => if keqb kcmp k' k then Some i else it_prev t i
      | None => Some i
      end
    end.
End Iter.
