(** C25 and C58: layers of contract storage *)
Require Import List Arith NArith ZArith Bool Lia.
From Verif Require Import BytesLib OrdLib VarModel VarSpec EngineModel EngineProofs EngineUpper StorModel StorSpec StorProofs.
Import ListNotations.
Open Scope N_scope.

(** C25: whatever is written, read, opened, committed and dropped, no step fails, and every layer of the stack reads like its
    snapshot, where opening copies the top snapshot, commit replaces the one below and drop forgets the top (StorSpec.v). *)
Theorem C25_layers_are_snapshots : forall (U : addr -> Prop) bal l,
  let db := mk_view (fun _ _ => None) (fun _ _ _ => None) bal in
  distinct_prefix U -> legal_run U [db] l ->
  exists s, s_run l (SDb (mk_sdb [] [] [] bal)) = Some s /\ Forall2 (shows U) (layers s) (sp_run l [db]).
Proof.
  intros U bal l db DP L. destruct (run U DP l _ _ (SIM_init U bal) L) as (s & R & SM). exists s. split; auto. now apply SIM_shows.
Qed.
Print Assumptions C25_layers_are_snapshots.

(** C58: a write of one contract is not seen by another, when the first 20 bytes of their addresses differ ... *)
Theorem C58_separate_storage_partial : forall (U : addr -> Prop) s s' c a v c' a' k',
  distinct_prefix U -> U c -> U c' -> c' <> c -> a < 2 ^ 64 -> a' < 2 ^ 64 -> svar_ok v -> s_write s c a v = Some s' ->
  s_read s' c' a' = s_read s c' a' /\ s_entry s' c' a' k' = s_entry s c' a' k'
  /\ (0 < a -> forall w, val_ok w -> (is_key v -> not_array (sv_val v)) -> s_lookup s' c' w = s_lookup s c' w).
Proof.
  intros U s s' c a v c' a' k' DP Uc Uc' NE A A' OK W. split; [|split].
  - rewrite (write_read U DP _ _ _ _ _ _ _ W) by auto. destruct (addr_eqb_spec c' c); [congruence|]. reflexivity.
  - eapply write_entry_same; eauto.
  - intros A0 w OKW NA. destruct (write_lookup U DP _ _ _ _ _ c' w W) as (_ & H); auto. apply H. tauto.
Qed.
Print Assumptions C58_separate_storage_partial.

(** ... and is seen by a contract whose address has the same first 20 bytes, once it is in the database *)
Definition adr (x : N) : addr := repeat 7 20 ++ repeat x 12.
Theorem C58_refuted : exists bal c c' a v l s,
  length c = 32%nat /\ length c' = 32%nat /\ c <> c' /\ svar_ok v /\ 0 < a < 2 ^ 64 /\
  l = [OOpen; OWrite c a v; OCommit] /\ s_run l (SDb (mk_sdb [] [] [] bal)) = Some s /\
  s_read s c' a = Some v /\ s_read (SDb (mk_sdb [] [] [] bal)) c' a = None.
Proof.
  exists (fun _ _ => None), (adr 1), (adr 2), 1000, (mk_svar 0 (mk_fl true false true false false) (VUint 42)),
    [OOpen; OWrite (adr 1) 1000 (mk_svar 0 (mk_fl true false true false false) (VUint 42)); OCommit].
  eexists. split; [reflexivity|]. split; [reflexivity|]. split; [intros [=]|]. split; [repeat split; reflexivity|]. split; [split; reflexivity|].
  split; [reflexivity|]. split; [vm_compute; reflexivity|]. split; vm_compute; reflexivity.
Qed.
Print Assumptions C58_refuted.

(** A case for C25: a key, a variable, an entry of a map and a balance, in nested layers of which one is dropped and two are
    committed; the database is not empty in the end. *)
Definition exU (c : addr) : Prop := c = repeat 1 32 \/ c = repeat 2 32.
Definition ex_ops : list sop :=
  let k := mk_svar 1 (mk_fl true true true false true) (VString [97]) in
  let v n := mk_svar 2 (mk_fl true false true false false) (VUint n) in
  [OOpen; OWrite (repeat 1 32) 5000 k; OOpen; OWrite (repeat 1 32) 7 (v 1); OBalance (repeat 1 32) [9] 100; OEntry (repeat 1 32) 7 5000 (v 3);
   OCommit; OOpen; OWrite (repeat 2 32) 7 (v 4); OEntry (repeat 1 32) 7 5000 (v 8); OGet (repeat 2 32) [9]; ODrop; OCommit].
Example C25_ex : distinct_prefix exU /\
  (let db := mk_view (fun _ _ => None) (fun _ _ _ => None) (fun _ _ => Some 1) in legal_run exU [db] ex_ops) /\
  (exists s, s_run ex_ops (SDb (mk_sdb [] [] [] (fun _ _ => Some 1))) = Some s /\ s_lookup s (repeat 1 32) (VString [97]) = 5000).
Proof.
  split; [|split].
  - split; [intros c [-> | ->]; reflexivity|]. intros c c' [-> | ->] [-> | ->]; try reflexivity; discriminate.
  - cbv zeta.
    repeat (cbn [legal_run ex_ops legal]; try (split; [first [exact I | (cbn; lia) |
      (split; [unfold exU; tauto|]; split; [split; reflexivity|]; split; [split; [reflexivity|vm_compute; repeat constructor]|];
       split; [intros w k [= <-] E; vm_compute in E; try discriminate; (injection E as <-; discriminate)
              |intros K; first [discriminate K | (split; [exact I|]; intros w a' k [= <-] E; vm_compute in E; discriminate)]])|
      (split; [unfold exU; tauto|]; split; [reflexivity|]; split; [reflexivity|]; split; [reflexivity|vm_compute; repeat constructor])]|])).
    exact I.
  - eexists. split; vm_compute; reflexivity.
Qed.
Example C58_ex : distinct_prefix exU /\ exU (repeat 1 32) /\ exU (repeat 2 32) /\ repeat 1 32 <> repeat 2 32 /\
  svar_ok (mk_svar 2 (mk_fl true false true false true) (VUint 5)) /\
  exists s', s_write (SCache ram_empty (SDb (mk_sdb [] [] [] (fun _ _ => None)))) (repeat 2 32) 9
    (mk_svar 2 (mk_fl true false true false true) (VUint 5)) = Some s'.
Proof.
  split; [exact (proj1 C25_ex)|]. split; [left; reflexivity|]. split; [right; reflexivity|]. split; [discriminate|].
  split; [split; reflexivity|]. eexists. reflexivity.
Qed.
