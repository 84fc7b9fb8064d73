(** A database of several tables: class DataBase of src/DataBase.cpp:1005-1072 and include/mmx/DataBase.h:238-272, with the
    start of the node, src/Node.cpp:160-215.  One table is the model of DbModel.v.

    Simplifications:
    - all tables have keys of one type and values of one type (byte strings in the code), each table has a comparator of its own;
    - the threads that flush or revert different tables touch different files, so only how far each of them got matters: when the process dies,
      every table has carried out some number of file system effects of its own;
    - no exception leaves a flush or a revert (shown for reverts, they are only asked for when they are possible). *)
Require Import List NArith Bool.
Require Import Verif.OrdLib Verif.DbModel.
Import ListNotations.
Open Scope N_scope.

Section Mdb.
  Context {K V : Type}.

  (** what is fixed for a table: the comparator and level_factor, include/mmx/DataBase.h:60-74 *)
  Record cfg := mk_cfg { c_cmp : K -> K -> comparison; c_lf : nat }.
  Definition tab : Type := (cfg * @sys K V)%type.
  Definition dbase : Type := list tab.

  Definition version_of (x : tab) : N := t_cur (s_tab (snd x)).
  Definition tab_event (ev : @event K V) (x : tab) : option tab :=
    match sys_step (c_cmp (fst x)) (c_lf (fst x)) (snd x) ev with Some s => Some (fst x, s) | None => None end.

  (** apply to every table, with its number *)
  Fixpoint each (f : nat -> tab -> option tab) (i : nat) (d : dbase) : option dbase :=
    match d with
    | [] => Some []
    | x :: d' =>
      match f i x, each f (S i) d' with
      | Some y, Some d2 => Some (y :: d2)
      | _, _ => None
      end
    end.

  (** src/DataBase.cpp:1054-1065 (DataBase::min_version) *)
  Definition min_version (d : dbase) : N :=
    match d with
    | [] => 0
    | _ => fold_left (fun m x => N.min (version_of x) m) d u32max
    end.

  (** src/DataBase.cpp:1045-1052 (DataBase::version) *)
  Definition db_version (d : dbase) : N := match d with [] => 0 | x :: _ => version_of x end.

  (** insert into table number [n] *)
  Definition db_insert (n : nat) (k : K) (v : V) (d : dbase) : option dbase :=
    each (fun i x => if Nat.eqb i n then tab_event (EvOp (OInsert k v)) x else Some x) 0 d.

  (** src/DataBase.cpp:1021-1032 (DataBase::commit): one table after the other, ended by an exception of a table;
      [fls]: whether do_flush() of the table answers true *)
  Fixpoint db_commit (n : N) (fls : list bool) (d : dbase) : option dbase :=
    match d with
    | [] => Some []
    | x :: d' =>
      let fl := match fls with f :: _ => f | [] => false end in
      match step (c_cmp (fst x)) (c_lf (fst x)) (OCommit n fl) (s_tab (snd x)) with
      | None => Some d
      | Some _ =>
        match tab_event (EvOp (OCommit n fl)) x, db_commit n (tl fls) d' with
        | Some y, Some d2 => Some (y :: d2)
        | _, _ => None
        end
      end
    end.

  (** src/DataBase.cpp:1034-1043 (DataBase::revert) *)
  Definition db_revert (n : N) (d : dbase) : option dbase :=
    each (fun _ x => tab_event (EvOp (ORevert n)) x) 0 d.

  (** src/DataBase.cpp:1067-1072 (DataBase::recover) *)
  Definition recover (d : dbase) : option dbase := db_revert (min_version d) d.

  (** Calls, and process deaths. *)
  Inductive dop :=
  | DInsert (i : nat) (k : K) (v : V)
  | DCommit (n : N) (fls : list bool)
  | DRevert (n : N).

  (** How far a table got: file system effects carried out, buffered log records that reached the file, process deaths while opening (see [event]). *)
  Definition death : Type := (nat * nat * list (nat * nat))%type.

  (** [EDie o ds rs]: the process dies during call [o], table number [i] having got as far as the [i]-th element of [ds]; then the
      node is started: it opens all tables and calls recover(); every element of [rs] is one more process death, during that recover(). *)
  Inductive devent :=
  | ECall (o : dop)
  | EDie (o : option dop) (ds : list death) (rs : list (list death)).

  (** what the call means for table number [i] *)
  Definition part (o : option dop) (i : nat) : option (@op K V) :=
    match o with
    | None => None
    | Some (DInsert j k v) => if Nat.eqb i j then Some (OInsert k v) else None
    | Some (DCommit n fls) => Some (OCommit n (nth i fls false))
    | Some (DRevert n) => Some (ORevert n)
    end.
  Definition die (o : nat -> option (@op K V)) (ds : list death) (d : dbase) : option dbase :=
    each (fun i x => let '(m, j, opens) := nth i ds (0%nat, 0%nat, []) in tab_event (EvCrash (o i) m j opens) x) 0 d.

  (** src/Node.cpp:165-188, 191-197: opening all tables, then recover() *)
  Fixpoint start (rs : list (list death)) (d : dbase) : option dbase :=
    match rs with
    | [] => recover d
    | ds :: rs' =>
      match die (fun _ => Some (ORevert (min_version d))) ds d with
      | Some d' => start rs' d'
      | None => None
      end
    end.

  Definition db_step (d : dbase) (ev : devent) : option dbase :=
    match ev with
    | ECall (DInsert i k v) => db_insert i k v d
    | ECall (DCommit n fls) => db_commit n fls d
    | ECall (DRevert n) => db_revert n d
    | EDie o ds rs => match die (part o) ds d with Some d' => start rs d' | None => None end
    end.
  Fixpoint db_steps (d : dbase) (evs : list devent) : option dbase :=
    match evs with
    | [] => Some d
    | ev :: evs' => match db_step d ev with Some d' => db_steps d' evs' | None => None end
    end.

  (** empty directories, opened for the first time *)
  Fixpoint db_open (cs : list cfg) : option dbase :=
    match cs with
    | [] => Some []
    | c :: cs' =>
      match init_sys (c_cmp c) (c_lf c), db_open cs' with
      | Some s, Some d => Some ((c, s) :: d)
      | _, _ => None
      end
    end.
  Definition db_run (cs : list cfg) (evs : list devent) : option dbase :=
    match db_open cs with
    | None => None
    | Some d => match recover d with Some d1 => db_steps d1 evs | None => None end
    end.
End Mdb.
