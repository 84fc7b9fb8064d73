(** C125: accounts of the wallet and their keys *)
Require Import List Arith NArith Bool Lia.
From Verif Require Import PrsModel FrmModel AccModel AccSpec AccProofs.
Import ListNotations.
Open Scope N_scope.

Lemma run_inv fpr path_of max_keys max_addrs num_addrs keys l s : (length keys <= max_keys)%nat -> slots_ok s ->
  let t := run fpr path_of max_keys max_addrs num_addrs keys l s in keeps_keys s t /\ slots_ok t.
Proof.
  intros KL. revert s. induction l as [|o l IH]; intros s S; [split; [intros f seed fp H; now exists fp|exact S]|]. cbn zeta. unfold run. cbn [fold_left].
  destruct (step fpr path_of max_keys max_addrs num_addrs keys s o) as [u b] eqn:E. destruct (step_inv fpr path_of max_keys max_addrs num_addrs keys s o u b KL E S) as [K U]. cbn [fst]. destruct (IH u U) as [K2 U2]. split; [|exact U2].
  intros f seed fp H. destruct (K f seed fp H) as [fp' H']. now apply (K2 f seed fp').
Qed.
Lemma start_ok fpr (path_of : N -> N) max_keys (max_addrs : N) num_addrs keys fs : slots_ok (start fpr max_keys num_addrs keys fs).
Proof. apply (load_ok fpr path_of max_keys max_addrs num_addrs keys). Qed.

(** Whatever is done with the wallet - accounts created, imported, removed, failing attempts, restarts - no key file ever loses its seed *)
Theorem C125_keys : forall fpr path_of max_keys max_addrs num_addrs keys fs before after, (length keys <= max_keys)%nat ->
  let s := run fpr path_of max_keys max_addrs num_addrs keys before (start fpr max_keys num_addrs keys fs) in
  keeps_keys s (run fpr path_of max_keys max_addrs num_addrs keys after s).
Proof. intros fpr path_of mk ma na keys fs l1 l2 KL s. apply run_inv; [exact KL|]. apply run_inv; [exact KL|]. now apply (start_ok fpr path_of mk ma). Qed.
Print Assumptions C125_keys.

(** What is exported for an account is the seed that the account signs with *)
Theorem C125_export : forall fpr path_of max_keys max_addrs num_addrs keys fs l i c seed, (length keys <= max_keys)%nat ->
  let s := run fpr path_of max_keys max_addrs num_addrs keys l (start fpr max_keys num_addrs keys fs) in
  slot i s = Some (c, seed) -> exists fp, export_wallet i s = Some (seed, fp).
Proof.
  intros fpr path_of mk ma na keys fs l i c seed KL s H. unfold export_wallet. rewrite H.
  apply (proj2 (run_inv fpr path_of mk ma na keys l _ KL (start_ok fpr path_of mk ma na keys fs)) i c seed H).
Qed.
Print Assumptions C125_export.

(** A wallet that was imported is there: under a new number, with its seed, name and key file, every other account is as before, and the key file is on disk *)
Theorem C125_import : forall fpr path_of max_keys max_addrs num_addrs c kf pass s s',
  import_wallet fpr path_of max_keys max_addrs num_addrs c kf pass s = (s', true) ->
  exists i w, (max_keys <= i)%nat /\ slot i s = None /\ slot i s' = Some (w, fst kf) /\ (forall j, j <> i -> slot j s' = slot j s) /\
    c_rest w = c_rest c /\ (c_key c <> 0 -> c_key w = c_key c) /\ (fpr (fst kf) pass <> 0 -> c_fp w = fpr (fst kf) pass) /\ c_pass w = (match pass with Some _ => true | None => false end) /\
    get (c_key w) (files s') = Some kf /\ (forall f, f <> c_key w -> get f (files s') = get f (files s)) /\
    exists d, accts s' = accts s ++ [d] /\ disk s' = accts s' /\ same_account w d.
Proof.
  intros fpr path_of mk ma na c kf pass s s'. unfold import_wallet. destruct (match snd kf with Some f => negb (f =? fpr (fst kf) pass) | None => false end); [discriminate|].
  remember (mk_cfg (if c_key c =? 0 then path_of (fpr (fst kf) pass) else c_key c) (c_rest c) (if c_num c =? 0 then na else c_num c) (fpr (fst kf) pass) (match pass with Some _ => true | None => false end) (c_hidden c)) as c' eqn:C. cbn zeta.
  destruct (match get (c_key c') (files s) with Some (seed, _) => negb (seed =? fst kf) | None => false end); [discriminate|].
  remember (set_files (put (c_key c') kf (files s)) s) as t eqn:T. destruct (create_account fpr mk ma c' pass t) as [u b] eqn:E. destruct b; [|now destruct (get (c_key c') (files s))]. intros [= <-].
  apply (create_spec fpr path_of mk ma na []) in E. destruct E as [F [[_ E]|[v [[A1 [A2 [A3 A4]]] [[K1 [K2 K3]] E]]]]]; [discriminate|].
  assert (FT : forall f, get f (files t) = if c_key c' =? f then Some kf else get f (files s)) by (intros f; rewrite T; cbn [set_files files]; apply FrmProofs.get_put).
  rewrite FT, N.eqb_refl in A4. destruct kf as [seed fp]. destruct A4 as [[w [W1 W2]] _]. assert (ST : forall j, slot j t = slot j s) by (intros j; now rewrite T).
  exists (max mk (length (wallets t))), w. rewrite E.
  split; [lia|]. split; [now rewrite <- ST|]. split; [exact W1|]. split; [intros j NE; rewrite <- ST; now apply A3|].
  pose proof W2 as SA. destruct W2 as [Wk [Wr [Wn [Wp Wf]]]]. split; [rewrite Wr, C; reflexivity|]. split; [intros NZ; rewrite Wk, C; cbn [c_key]; now rewrite (proj2 (N.eqb_neq _ _) NZ)|].
  split.
  { cbn [fst]. intros NZ. destruct Wf as [Wf|Wf]; [rewrite <- Wf, C; reflexivity|]. rewrite C in Wf. easy. }
  split; [rewrite Wp, C; reflexivity|]. cbn [set_both files accts disk]. rewrite K1, Wk. split; [now rewrite FT, N.eqb_refl|].
  split; [intros f NE; rewrite FT; now rewrite (proj2 (N.eqb_neq _ _)) by congruence|]. exists c'. split; [now rewrite T|]. easy.
Qed.
Print Assumptions C125_import.


(** An account that was created is there: under a new number, with the seed of its key file, and every other account is as before *)
Theorem C125_create : forall fpr max_keys max_addrs c pass s s', create_account fpr max_keys max_addrs c pass s = (s', true) ->
  exists i w seed fp, (max_keys <= i)%nat /\ slot i s = None /\ slot i s' = Some (w, seed) /\ same_account w c /\ get (c_key c) (files s) = Some (seed, fp) /\
    (forall j, j <> i -> slot j s' = slot j s) /\ files s' = files s /\ accts s' = accts s ++ [c] /\ disk s' = accts s' /\ 1 <= c_num c <= max_addrs.
Proof.
  intros fpr mk ma c pass s s' E. assert (B : 1 <= c_num c <= ma).
  { unfold create_account in E. destruct (_ || _) eqn:O; [discriminate|]. apply orb_false_iff in O. rewrite !N.ltb_ge in O. lia. }
  apply (create_spec fpr (fun x => x) mk ma 0 []) in E. destruct E as [F [[_ E]|[t [[A1 [A2 [A3 A4]]] [[K1 [K2 K3]] E]]]]]; [discriminate|].
  destruct (get (c_key c) (files s)) as [[seed fp]|]; [|destruct A4; discriminate]. destruct A4 as [[w [W1 W2]] _].
  exists (max mk (length (wallets s))), w, seed, fp. subst s'. split; [lia|]. split; [exact A1|]. split; [exact W1|]. split; [exact W2|]. split; [easy|]. split; [exact A3|]. split; [exact F|]. easy.
Qed.
Print Assumptions C125_create.

(** An account that was removed is no longer there, every other one is as before, and no key file is touched *)
Theorem C125_remove : forall max_keys i s s', remove_account max_keys i s = (s', true) ->
  (max_keys <= i)%nat /\ get_account i s <> None /\ get_account i s' = None /\ (forall j, j <> i -> slot j s' = slot j s) /\ files s' = files s.
Proof.
  intros mk i s s' E. apply (remove_spec (fun x _ => x) (fun x => x) mk 0 0 []) in E. destruct E as [F [[_ E]|[_ [M [N [S _]]]]]]; [discriminate|].
  split; [exact M|]. split; [unfold get_account; now destruct (slot i s)|]. split; [unfold get_account; now rewrite S, Nat.eqb_refl|]. split; [|exact F].
  intros j NE. rewrite S. now rewrite (proj2 (Nat.eqb_neq i j)) by congruence.
Qed.
Print Assumptions C125_remove.

(** In ordinary histories a restart changes nothing: the same accounts are listed under the same numbers, with the same seeds *)
Theorem C125_restart : forall fpr path_of max_keys max_addrs num_addrs keys fs l, (length keys <= max_keys)%nat ->
  let s0 := start fpr max_keys num_addrs keys fs in
  tame fpr path_of max_keys max_addrs num_addrs keys s0 l ->
  let s := run fpr path_of max_keys max_addrs num_addrs keys l s0 in
  same_list max_keys s (fst (step fpr path_of max_keys max_addrs num_addrs keys s Restart)).
Proof.
  intros fpr path_of mk ma na keys fs l KL s0 T s. cbn [step fst].
  assert (G : forall l u, slots_ok u -> aligned mk u -> tame fpr path_of mk ma na keys u l -> slots_ok (run fpr path_of mk ma na keys l u) /\ aligned mk (run fpr path_of mk ma na keys l u)).
  { clear T s l. induction l as [|o l IH]; intros u S A T; [easy|]. destruct T as [P T]. unfold run. cbn [fold_left]. apply IH; [| |exact T].
    - destruct (step fpr path_of mk ma na keys u o) as [v b] eqn:E. now apply (step_inv fpr path_of mk ma na keys u o v b KL E).
    - now apply (plain_aligned fpr path_of mk ma na keys). }
  assert (A0 : aligned mk s0).
  { destruct (load_spec fpr path_of mk ma na keys (mk_st fs [] [] []) KL) as [_ [A [D [L _]]]]. cbn [disk length] in *. split; [unfold s0, start; now rewrite A, D|]. split.
    - right. split; [exact A|]. unfold s0, start. cbn in L. lia.
    - intros i c N. unfold s0, start in N. rewrite A in N. now destruct i. }
  destruct (G l s0 (start_ok fpr path_of mk ma na keys fs) A0 T) as [S A]. now apply (aligned_same fpr path_of mk ma na keys).
Qed.
Print Assumptions C125_restart.

(** Without that it fails.  The number of a new account is counted from the slots, its place in the config from the accounts: when the last account was removed and the wallet restarted these differ, and removing the new account by its number removes another one for good, while the removed one comes back *)
Definition fp0 (seed : N) (pass : option N) : N := seed + match pass with Some p => 100 * p | None => 0 end.
Definition acc (f name : N) : cfg := mk_cfg f name 1 0 false false.
Definition fs0 : list (N * key_file) := [(1, (7, None)); (2, (8, None))].
Definition run0 := run fp0 (fun x => x + 1000) 2 100 5 [1].
Definition start0 := start fp0 2 5 [1] fs0.
Definition name_of (i : nat) (s : st) : option N := option_map c_rest (get_account i s).
Fixpoint all_ok (l : list op) (s : st) : bool :=
  match l with [] => true | o :: r => let '(t, ok) := step fp0 (fun x => x + 1000) 2 100 5 [1] s o in ok && all_ok r t end.
Theorem C125_remove_refuted : exists l s' t,
  let s := run0 l start0 in
  (* every step of the history succeeds *)
  all_ok l start0 = true /\
  (* the account named 13 is removed, the one named 12 is not *)
  name_of 4 s = Some 13 /\ name_of 3 s = Some 12 /\ remove_account 2 4 s = (s', true) /\ name_of 4 s' = None /\ name_of 3 s' = Some 12 /\
  (* after a restart 12 is no longer there, and 13 is *)
  t = load fp0 2 5 [1] s' /\ (forall i, name_of i t <> Some 12) /\ name_of 5 t = Some 13.
Proof.
  exists [Create (acc 1 10) None; Create (acc 2 11) None; Remove 3; Restart; Create (acc 2 12) None; Create (acc 2 13) None].
  eexists. eexists. cbn zeta. split; [vm_compute; reflexivity|]. split; [vm_compute; reflexivity|]. split; [vm_compute; reflexivity|]. split; [vm_compute; reflexivity|]. split; [vm_compute; reflexivity|]. split; [vm_compute; reflexivity|]. split; [reflexivity|]. split; [|vm_compute; reflexivity].
  intros i. destruct i as [|[|[|[|[|[|i]]]]]]; try (vm_compute; discriminate). unfold name_of, get_account. rewrite slot_len; [discriminate|]. vm_compute. lia.
Qed.
Print Assumptions C125_remove_refuted.

(** A failed attempt to create an account leaves one behind that is listed until the next restart *)
Theorem C125_failed_refuted : exists c pass s', create_account fp0 2 100 c pass start0 = (s', false) /\ get_account 2 start0 = None /\ get_account 2 s' <> None /\ accts s' = [] /\ get_account 2 (load fp0 2 5 [1] s') = None.
Proof. exists (mk_cfg 1 10 1 99 true false), (Some 3). eexists. split; [vm_compute; reflexivity|]. repeat split; vm_compute; (reflexivity || discriminate). Qed.
Print Assumptions C125_failed_refuted.

(** An account that was removed comes back when the number of its addresses is set, although it stays removed in the config *)
Theorem C125_count_refuted : exists l s', let s := run0 l start0 in all_ok l start0 = true /\ get_account 2 s = None /\ set_address_count fp0 2 100 2 9 s = (s', true) /\ get_account 2 s' <> None /\ get_account 2 (load fp0 2 5 [1] s') = None.
Proof. exists [Create (acc 1 10) None; Remove 2]. eexists. split; [vm_compute; reflexivity|]. split; [vm_compute; reflexivity|]. split; [vm_compute; reflexivity|]. split; vm_compute; (reflexivity || discriminate). Qed.
Print Assumptions C125_count_refuted.

(** Cases *)
Definition day : list op := [Create (acc 1 10) None; Import (acc 0 11) (9, None) (Some 3); New (acc 5 12) 4 None; Remove 2; SetCount 3 8; Restart; Import (acc 2 13) (77, None) None; Create (acc 2 14) None].
Example ex_day : map (fun i => name_of i (run0 day start0)) [2; 3; 4; 5; 6]%nat = [None; Some 11; Some 12; Some 14; None] /\ get 2 (files (run0 day start0)) = Some (8, None) /\ export_wallet 3 (run0 day start0) = Some (9, None) /\ slot 3 (run0 day start0) = Some (mk_cfg 1309 11 8 309 true false, 9).
Proof. vm_compute. repeat split. Qed.
Example ex_tame : tame fp0 (fun x => x + 1000) 2 100 5 [1] start0 day.
Proof.
  cbn [tame day]. repeat match goal with |- _ /\ _ => split end; try exact I; cbn [plain acc c_hidden]; try reflexivity; try (split; [reflexivity|]; vm_compute; reflexivity).
  - vm_compute. discriminate.
  - intros l c H. vm_compute in H. destruct l as [|a [|b [|d [|e l]]]]; cbn in H; try discriminate; try (injection H as <-; reflexivity); injection H; intros; subst; try reflexivity; try discriminate.
Qed.
Example ex_import_ok : snd (import_wallet fp0 (fun x => x + 1000) 2 100 5 (acc 0 11) (9, Some 309) (Some 3) start0) = true /\ snd (import_wallet fp0 (fun x => x + 1000) 2 100 5 (acc 0 11) (9, Some 308) (Some 3) start0) = false.
Proof. split; vm_compute; reflexivity. Qed.
