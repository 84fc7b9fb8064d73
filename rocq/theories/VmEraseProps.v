(** C52: the part that holds *)
Require Import List Arith NArith ZArith Bool Lia.
From Verif Require Import BytesLib OrdLib VarModel InstrModel EngineModel EngineSpec ExecModel ExecSpec EngineProofs EngineUpper EngineVis ExecCases VmSortProofs VmEraseProofs.
Import ListNotations.
Open Scope N_scope.

(** the value of an entry in storage, with what the transaction wrote so far *)
Definition stored_entry (bk : backend) (w : world) (c : addr) (a k : N) : option val :=
  match cache_entry bk (w_ram w) c a k with
  | Some v => if f_deleted (sv_fl v) then None else Some (sv_val v)
  | None => None
  end.
(** The entry exists, and the engine took it from storage or has not looked at it yet (and its container is from storage):
    the call did not write it before it was read. *)
Definition from_storage (bk : backend) (s : st) (a k : N) : Prop :=
  match cell s (LEnt a k) with
  | Some o => f_stored (o_fl o) = true /\ f_deleted (o_fl o) = false
  | None => stored_entry bk (s_world s) (s_contract s) a k <> None /\
            forall c s1, read_fail bk a s = Ok c s1 -> f_stored (o_fl c) = true
  end.

Lemma entry_after_read bk a k s c s1 : read_fail bk a s = Ok c s1 ->
  cell s1 (LEnt a k) = cell s (LEnt a k) /\ s_contract s1 = s_contract s /\ s_world s1 = s_world s.
Proof.
  intros H. assert (exists n id o, s1 = s \/ s1 = set_gas n s \/ s1 = put_cell (LMem a) o (set_next_id id (set_gas n s))) as (n & id & o & X).
  { unfold read_fail in H. apply bind_ok in H as (o & s2 & H & H2).
    assert (s1 = s2) as ->. { destruct o; [apply ok_inj in H2 as (_ & <-)|discriminate]; auto. } clear H2.
    unfold read in H. apply bind_ok in H as (t1 & t2 & E1 & H). injection E1 as <- <-.
    destruct (cell s (LMem a)). { apply ok_inj in H as (_ & <-). exists 0, 0, (mk_obj 0 0 no_fl VNil). auto. }
    destruct (_ <=? _). 2:{ apply ok_inj in H as (_ & <-). exists 0, 0, (mk_obj 0 0 no_fl VNil). auto. }
    apply bind_ok in H as (v & t3 & E & H). apply stor_read_ok in E as ((n & ->) & _).
    destruct v as [v|]. 2:{ apply ok_inj in H as (_ & <-). exists n, 0, (mk_obj 0 0 no_fl VNil). auto. }
    apply bind_ok in H as (u & t4 & E & H). apply put_new_ok in E as ->. apply bind_ok in H as (t5 & t6 & E & H). injection E as <- <-.
    apply ok_inj in H as (_ & <-). eexists n, _, _. right. right. reflexivity. }
  destruct X as [->|[->| ->]]; auto.
Qed.
Lemma erase_entry_gone bk a k s s1 : MEM_STATIC <= a -> from_storage bk s a k -> erase_entry bk a k s = Ok tt s1 -> gone (LEnt a k) s1.
Proof.
  intros L F H. unfold erase_entry in H. apply bind_ok in H as (t1 & t2 & E1 & H). injection E1 as <- <-.
  unfold from_storage in F. destruct (cell s (LEnt a k)) as [o|] eqn:C.
  - eapply er_gone; [| |exact H].
    + exists o. tauto.
    + intros o' C'. rewrite C in C'. injection C' as <-. tauto.
  - destruct (N.leb_spec MEM_STATIC a); [|lia].
    apply bind_ok in H as (c & t2 & E2 & H). destruct F as (F1 & F2). rewrite (F2 c t2 E2) in H.
    destruct (entry_after_read _ _ k _ _ _ E2) as (K1 & K2 & K3).
    apply bind_ok in H as (v & t3 & E3 & H). unfold stor_entry in E3. apply bind_ok in E3 as (t4 & t5 & E4 & E3). injection E4 as <- <-.
    apply bind_ok in E3 as (u & t4 & E4 & E3). apply ok_inj in E3 as (<- & <-). apply charge_read_ok in E4.
    assert (exists w, cache_entry bk (s_ram t2) (s_contract t2) a k = Some w /\ f_deleted (sv_fl w) = false) as (w & W1 & W2).
    { unfold s_ram. rewrite K2, K3. unfold stored_entry in F1. destruct (cache_entry _ _ _ _ _) as [w|]; [|congruence]. exists w. split; auto.
      destruct (f_deleted (sv_fl w)); congruence. }
    rewrite W1 in H. cbn [read_ex] in H. rewrite W2 in H. destruct E4 as (n & ->).
    apply bind_ok in H as (u2 & t6 & E5 & H). apply put_new_ok in E5 as ->.
    eapply er_gone; [| |exact H].
    + eexists. rewrite cell_put_same. split; [reflexivity|]. cbn [o_fl]. destruct w as [? []]; cbn. destruct (s_ro t2); reflexivity.
    + intros o. rewrite cell_put_same. intros E. injection E as <-. cbn [o_fl sv_fl]. destruct w as [? []]; cbn in *. destruct (s_ro t2); auto.
Qed.
Lemma next_check_ent s s1 : (next ;;; check_gas) s = Ok tt s1 -> s_ent s1 = s_ent s /\ s_contract s1 = s_contract s.
Proof.
  intros H. apply bind_ok in H as (u & t & E & H). unfold check_gas in H. destruct (_ <? _); [discriminate|]. apply ok_inj in H as (_ & <-).
  unfold next in E. apply bind_ok in E as (f & t1 & E1 & E). unfold get_frame in E1. apply bind_ok in E1 as (t2 & t3 & E2 & E1).
  injection E2 as <- <-. destruct (s_frames s) eqn:F; [discriminate|]. apply ok_inj in E1 as (_ & <-).
  unfold jump in E. apply bind_ok in E as (t2 & t3 & E2 & E). injection E2 as <- <-. rewrite F in E.
  destruct p. unfold modify in E. apply ok_inj in E as (_ & <-). auto.
Qed.

(** An entry that is erased (in state [s], at the end of an instruction), that was taken from storage, and that the rest of
    the method leaves alone, is gone from storage after the commit at the end of the method.
    Missing: entries that the call wrote before it read them, for which it is false. *)
Theorem C52_loaded_entries_partial : forall E depth dep a k s s1 s2 n s3 s4,
  MEM_STATIC <= a -> sorted_ent s -> from_storage (e_backend E) s a k ->
  erase_entry (e_backend E) a k s = Ok tt s1 -> (next ;;; check_gas) s1 = Ok tt s2 ->
  steps (step (e_backend E) (e_ext E) (remote_call E depth dep) (read_contract E)) n s2 s3 ->
  cell s3 (LEnt a k) = cell s2 (LEnt a k) ->
  commit (e_backend E) s3 = Ok tt s4 ->
  stored_entry (e_backend E) (s_world s4) (s_contract s) a k = None.
Proof.
  intros E depth dep a k s s1 s2 n s3 s4 L S F H1 H2 H3 H4 H5.
  pose proof (erase_entry_gone _ _ _ _ _ L F H1) as G.
  destruct (so_erase_entry (e_backend E) a k _ _ _ H1) as (S1 & C1). specialize (S1 S).
  destruct (next_check_ent _ _ H2) as (N1 & N2).
  assert (S2 : sorted_ent s2) by (unfold sorted_ent; rewrite N1; exact S1).
  assert (G2 : gone (LEnt a k) s2). { destruct G as (o & C & G). exists o. split; auto. unfold cell in *. rewrite N1. auto. }
  assert (K : kept s2 s3).
  { clear - H3. induction H3; [apply kept_refl|]. eapply kept_trans; eauto.
    exact (so_step _ _ _ _ (so_remote_call E depth dep) (so_read_contract E) _ _ _ H). }
  destruct K as (K1 & K2). specialize (K1 S2).
  assert (G3 : gone (LEnt a k) s3). { destruct G2 as (o & C & G2). exists o. rewrite H4. auto. }
  destruct (commit_gone _ _ _ _ _ L G3 K1 H5) as (v & V1 & V2).
  unfold stored_entry. change (w_ram (s_world s4)) with (s_ram s4). replace (s_contract s) with (s_contract s3) by congruence. rewrite V1, V2. reflexivity.
Qed.
Print Assumptions C52_loaded_entries_partial.
(** the memory of an engine that is new is in order, and no step of a method changes that *)
Theorem entries_stay_sorted : forall E depth dep n s s',
  steps (step (e_backend E) (e_ext E) (remote_call E depth dep) (read_contract E)) n s s' -> sorted_ent s -> sorted_ent s'.
Proof.
  intros E depth dep n s s' H. induction H; auto. intros S. apply IHsteps.
  apply (so_step _ _ _ _ (so_remote_call E depth dep) (so_read_contract E) _ _ _ H). exact S.
Qed.

(** the state in which ERASE of [code_erase] calls [erase_entry] *)
Definition er_E := env0 code_erase const_erase [] [] true.
Definition er_s := ok_state ((start_setup er_E aA None ;;; m <- prepare er_E aA [109] false ;; begin 0) (engine_new aA 1 200000 false w0)).
Definition er_s1 := ok_state (erase_entry bk0 (MEM_STATIC + 1) 1 er_s).
Definition er_s2 := ok_state ((next ;;; check_gas) er_s1).
Definition er_s3 := ok_state (step bk0 ext0 (remote_call er_E 30 []) (read_contract er_E) er_s2).
Definition er_s4 := ok_state (commit bk0 er_s3).
Example C52_case : from_storage bk0 er_s (MEM_STATIC + 1) 1 /\ sorted_ent er_s /\
  erase_entry bk0 (MEM_STATIC + 1) 1 er_s = Ok tt er_s1 /\ (next ;;; check_gas) er_s1 = Ok tt er_s2 /\
  steps (step bk0 ext0 (remote_call er_E 30 []) (read_contract er_E)) 1 er_s2 er_s3 /\
  cell er_s3 (LEnt (MEM_STATIC + 1) 1) = cell er_s2 (LEnt (MEM_STATIC + 1) 1) /\
  commit bk0 er_s3 = Ok tt er_s4 /\
  stored_entry bk0 (s_world er_s) aA (MEM_STATIC + 1) 1 = Some (VUint 7) /\
  stored_entry bk0 (s_world er_s4) aA (MEM_STATIC + 1) 1 = None.
Proof.
  split.
  { unfold from_storage. assert (C : cell er_s (LEnt (MEM_STATIC + 1) 1) = None) by (vm_compute; reflexivity). rewrite C.
    split. { assert (X : stored_entry bk0 (s_world er_s) (s_contract er_s) (MEM_STATIC + 1) 1 = Some (VUint 7)) by (vm_compute; reflexivity).
             change (e_backend er_E) with bk0 in *. rewrite X. discriminate. }
    intros c s1 H.
    assert (X : match read_fail bk0 (MEM_STATIC + 1) er_s with Ok c _ => f_stored (o_fl c) | _ => false end = true) by (vm_compute; reflexivity).
    rewrite H in X. exact X. }
  split. { unfold sorted_ent, asorted. assert (C : s_ent er_s = nil) by (vm_compute; reflexivity). rewrite C. constructor. }
  split; [vm_compute; reflexivity|]. split; [vm_compute; reflexivity|].
  split. { apply (steps_S _ _ _ er_s3); [|constructor]. vm_compute; reflexivity. }
  split; [vm_compute; reflexivity|]. split; [vm_compute; reflexivity|]. split; vm_compute; reflexivity.
Qed.
