(** Several threads do what one would do *)
Require Import List Arith NArith ZArith Bool Lia.
From Verif Require Import BytesLib OrdLib VarModel InstrModel EngineModel ExecModel StorModel TxModel BlockModel ParModel ParSpec EngineUpper IsoProofs LockProofs CtxProofs.
From Verif Require StorProofs.
Import ListNotations.
Open Scope N_scope.

(** ** What a cache says about one contract *)
Definition of_c {K V} (c : addr) (e : (addr * K) * V) : bool := addr_eqb (fst (fst e)) c.
Definition proj (c : addr) (r : ram) : ram :=
  mk_ram (filter (of_c c) (r_mem r)) (filter (of_c c) (r_ent r)) (filter (of_c c) (r_keys r)) (filter (of_c c) (r_bal r)).
Lemma lfind_filter {K V} (eqb : K -> K -> bool) k (p : K * V -> bool) l : (forall e, In e l -> eqb k (fst e) = true -> p e = true) -> lfind eqb k (filter p l) = lfind eqb k l.
Proof.
  induction l as [|(k', v) l IH]; intros H; auto. cbn [filter].
  destruct (p (k', v)) eqn:PE; rewrite !lfind_cons; [destruct (eqb k k') eqn:EQ; auto; apply IH; intros e I; apply H; now right|].
  rewrite IH by (intros e I; apply H; now right). destruct (eqb k k') eqn:EQ; auto. specialize (H (k', v) (or_introl eq_refl) EQ). congruence.
Qed.
Lemma proj_read c r a : ram_read (proj c r) c a = ram_read r c a.
Proof. unfold ram_read, proj. cbn [r_mem]. apply lfind_filter. intros ((c', a'), v) _ E. cbn [fst] in E. destruct (StorProofs.mem_eqb_spec (c, a) (c', a')) as [Q|]; [injection Q as -> ->|discriminate]. unfold of_c. cbn. apply addr_eqb_refl. Qed.
Lemma proj_entry c r a k : ram_read_entry (proj c r) c a k = ram_read_entry r c a k.
Proof. unfold ram_read_entry, proj. cbn [r_ent]. apply lfind_filter. intros ((c', a'), v) _ E. cbn [fst] in E. destruct (StorProofs.ent_eqb_spec (c, (a, k)) (c', a')) as [Q|]; [injection Q as -> Q|discriminate]. unfold of_c. cbn. apply addr_eqb_refl. Qed.
Lemma key_eqb_fst c v k : key_eqb (c, v) k = true -> fst k = c.
Proof. unfold key_eqb. cbn. intros E. apply andb_true_iff in E as (E & _). destruct (addr_eqb_spec c (fst k)); congruence. Qed.
Lemma proj_lookup c r v : ram_lookup (proj c r) c v = ram_lookup r c v.
Proof. unfold ram_lookup, proj. cbn [r_keys]. rewrite lfind_filter; auto. intros (k, a) _ E. apply key_eqb_fst in E. unfold of_c. cbn [fst] in *. rewrite E. apply addr_eqb_refl. Qed.
Lemma proj_balance c r cur : ram_balance (proj c r) c cur = ram_balance r c cur.
Proof. unfold ram_balance, proj. cbn [r_bal]. apply lfind_filter. intros ((c', a'), v) _ E. cbn [fst] in E. destruct (bal_eqb_spec (c, cur) (c', a')) as [Q|]; [injection Q as -> ->|discriminate]. unfold of_c. cbn. apply addr_eqb_refl. Qed.

(** two contents of the shared storage that are the same for contract [c] *)
Definition on (c : addr) (s s' : storage) : Prop := exists r r' d, s = SCache r (SDb d) /\ s' = SCache r' (SDb d) /\ proj c r = proj c r'.
Lemma on_sym c s s' : on c s s' -> on c s' s.
Proof. intros (r & r' & d & -> & -> & E). exists r', r, d. auto. Qed.
Lemma on_trans c s s' s'' : on c s s' -> on c s' s'' -> on c s s''.
Proof. intros (r & r' & d & -> & -> & E) (r1 & r2 & d' & Q & -> & E2). injection Q as <- <-. exists r, r2, d. split; auto. split; auto. congruence. Qed.
Section ON.
  Variables (c : addr) (s s' : storage).
  Hypothesis H : on c s s'.
  Lemma on_read a : s_read s c a = s_read s' c a.
  Proof. destruct H as (r & r' & d & -> & -> & E). cbn [s_read]. now rewrite <- (proj_read c r), E, proj_read. Qed.
  Lemma on_entry a k : s_entry s c a k = s_entry s' c a k.
  Proof. destruct H as (r & r' & d & -> & -> & E). cbn [s_entry]. now rewrite <- (proj_entry c r), E, proj_entry. Qed.
  Lemma on_lookup v : s_lookup s c v = s_lookup s' c v.
  Proof. destruct H as (r & r' & d & -> & -> & E). cbn [s_lookup]. now rewrite <- (proj_lookup c r), E, proj_lookup. Qed.
  Lemma on_balance cur : fst (s_get_balance s c cur) = fst (s_get_balance s' c cur).
  Proof. destruct H as (r & r' & d & -> & -> & E). cbn [s_get_balance]. rewrite <- (proj_balance c r), E, proj_balance. destruct (ram_balance r' c cur); auto. Qed.
End ON.

Definition at_c (w : sop) (c : addr) : Prop := match w with OWrite c' _ _ | OEntry c' _ _ _ | OBalance c' _ _ => c' = c | _ => False end.
Lemma proj_write c r a v r1 : ram_write r c a v = Some r1 -> ram_write (proj c r) c a v = Some (proj c r1).
Proof.
  unfold ram_write. rewrite proj_read.
  assert (K : proj c (mk_ram (((c, a), v) :: r_mem r) (r_ent r) (if f_key (sv_fl v) then ((c, sv_val v), a) :: r_keys r else r_keys r) (r_bal r)) =
              mk_ram (((c, a), v) :: r_mem (proj c r)) (r_ent (proj c r)) (if f_key (sv_fl v) then ((c, sv_val v), a) :: r_keys (proj c r) else r_keys (proj c r)) (r_bal (proj c r))).
  { unfold proj. cbn [r_mem r_ent r_keys r_bal filter]. unfold of_c at 1. cbn [fst]. rewrite addr_eqb_refl. destruct (f_key (sv_fl v)); auto. cbn [filter]. unfold of_c at 3. cbn [fst]. now rewrite addr_eqb_refl. }
  destruct (ram_read r c a) as [o|]; [destruct (f_key (sv_fl o)); [discriminate|]|]; intros [= <-]; now rewrite K.
Qed.
Lemma proj_write_none c r a v : ram_write r c a v = None -> ram_write (proj c r) c a v = None.
Proof. unfold ram_write. rewrite proj_read. destruct (ram_read r c a) as [o|]; [destruct (f_key (sv_fl o)); auto; discriminate|discriminate]. Qed.
Lemma s_do_on c w s s' s1 : at_c w c -> on c s s' -> s_do w s = Some s1 -> exists s1', s_do w s' = Some s1' /\ on c s1 s1'.
Proof.
  intros A (r & r' & d & -> & -> & E). destruct w as [c' a v|c' a k v|c' cur m| | | |]; cbn in A; try contradiction; subst c'; cbn [s_do s_write s_write_entry s_set_balance].
  - destruct (ram_write r c a v) as [r1|] eqn:W; [|discriminate]. intros [= <-]. apply proj_write in W as W1. rewrite E in W1.
    destruct (ram_write r' c a v) as [r1'|] eqn:W'; [|apply proj_write_none in W'; congruence]. apply proj_write in W' as W2. exists (SCache r1' (SDb d)). split; auto. exists r1, r1', d. split; auto. split; auto. congruence.
  - intros [= <-]. eexists. split; [reflexivity|]. exists (ram_write_entry r c a k v), (ram_write_entry r' c a k v), d. split; auto. split; auto. injection E as E1 E2 E3 E4.
    unfold proj, ram_write_entry. cbn [r_mem r_ent r_keys r_bal filter]. destruct (of_c c _); congruence.
  - intros [= <-]. eexists. split; [reflexivity|]. exists (ram_set_balance r c cur m), (ram_set_balance r' c cur m), d. split; auto. split; auto. injection E as E1 E2 E3 E4.
    unfold proj, ram_set_balance. cbn [r_mem r_ent r_keys r_bal filter]. destruct (of_c c _); congruence.
Qed.
Lemma s_do_none c w s s' : at_c w c -> on c s s' -> s_do w s = None -> s_do w s' = None.
Proof.
  intros A O E. destruct (s_do w s') as [s1'|] eqn:E'; auto. destruct (s_do_on c w s' s s1' A (on_sym _ _ _ O) E') as (s1 & E1 & _). congruence.
Qed.
Definition shaped (s : storage) : Prop := exists r d, s = SCache r (SDb d).
Lemma on_refl c s : shaped s -> on c s s.
Proof. intros (r & d & ->). exists r, r, d. auto. Qed.
Lemma of_c_off {K V} c c' (k : K) (v : V) : c' <> c -> of_c c ((c', k), v) = false.
Proof. intros NE. unfold of_c. cbn. destruct (addr_eqb_spec c' c); congruence. Qed.
Lemma s_do_off c c' w s s1 : shaped s -> at_c w c' -> c' <> c -> s_do w s = Some s1 -> on c s s1.
Proof.
  intros (r & d & ->) A NE. destruct w as [c2 a v|c2 a k v|c2 cur m| | | |]; cbn in A; try contradiction; subst c2; cbn [s_do s_write s_write_entry s_set_balance].
  - destruct (ram_write r c' a v) as [r1|] eqn:W; [|discriminate]. intros [= <-]. exists r, r1, d. split; auto. split; auto.
    assert (K : r1 = mk_ram (((c', a), v) :: r_mem r) (r_ent r) (if f_key (sv_fl v) then ((c', sv_val v), a) :: r_keys r else r_keys r) (r_bal r)).
    { unfold ram_write in W. destruct (ram_read r c' a) as [o|]; [destruct (f_key (sv_fl o)); [discriminate|]|]; congruence. }
    subst r1. unfold proj. cbn [r_mem r_ent r_keys r_bal filter]. rewrite of_c_off by auto. destruct (f_key (sv_fl v)); auto. cbn [filter]. now rewrite of_c_off by auto.
  - intros [= <-]. exists r, (ram_write_entry r c' a k v), d. split; auto. split; auto. unfold proj, ram_write_entry. cbn [r_mem r_ent r_keys r_bal filter]. now rewrite of_c_off by auto.
  - intros [= <-]. exists r, (ram_set_balance r c' cur m), d. split; auto. split; auto. unfold proj, ram_set_balance. cbn [r_mem r_ent r_keys r_bal filter]. now rewrite of_c_off by auto.
Qed.
Lemma s_do_shaped w c s s1 : at_c w c -> shaped s -> s_do w s = Some s1 -> shaped s1.
Proof.
  intros A (r & d & ->). destruct w as [c2 a v|c2 a k v|c2 cur m| | | |]; cbn in A; try contradiction; cbn [s_do s_write s_write_entry s_set_balance].
  - destruct (ram_write r c2 a v) as [r1|]; [|discriminate]. intros [= <-]. exists r1, d. auto.
  - intros [= <-]. eexists _, d. eauto.
  - intros [= <-]. eexists _, d. eauto.
Qed.

(** ** The writes of a commit *)
Lemma items_in' {K V} (cmp : K -> K -> comparison) (T : TotalCmp cmp) (eqb : K -> K -> bool) (S : forall x y, Bool.reflect (x = y) (eqb x y)) (l : list (K * V)) e : In e (items cmp l) -> In e l.
Proof. destruct e as (k, v). apply (StorProofs.items_in cmp T eqb S). Qed.
Lemma commit_ops_at P r : ram_in P r -> Forall (fun w => exists c, at_c w c /\ P c = true) (commit_ops r).
Proof.
  intros [H1 H2 H3 H4]. unfold commit_ops. rewrite !Forall_app, !Forall_map, !Forall_forall. split; [|split]; intros e I; exists (fst (fst e)); split; try reflexivity.
  - apply H1. revert I. apply (items_in' _ StorProofs.mem_cmp_total _ StorProofs.mem_eqb_spec).
  - apply H2. revert I. apply (items_in' _ StorProofs.ent_cmp_total _ StorProofs.ent_eqb_spec).
  - apply H4. revert I. apply (items_in' _ StorProofs.bal_cmp_total _ bal_eqb_spec).
Qed.
Lemma apply_app l l' s : apply_ops (l ++ l') s = let '(s1, ok) := apply_ops l s in if ok : bool then apply_ops l' s1 else (s1, false).
Proof. revert s. induction l as [|w l IH]; intros s; cbn [app apply_ops]; auto. destruct (s_do w s); auto. Qed.
Lemma apply_off (P : addr -> bool) c l : Forall (fun w => exists c, at_c w c /\ P c = true) l -> P c = false -> forall s, shaped s -> on c s (fst (apply_ops l s)) /\ shaped (fst (apply_ops l s)).
Proof.
  intros F NP. induction F as [|w l (c' & A & PC) _ IH]; intros s SH; cbn [apply_ops fst]; [split; auto; now apply on_refl|].
  destruct (s_do w s) as [s1|] eqn:E; [|split; auto; now apply on_refl]. assert (SH1 := s_do_shaped w c' s s1 A SH E). destruct (IH s1 SH1) as (O & S2). split; auto.
  eapply on_trans; [|exact O]. eapply s_do_off; eauto. congruence.
Qed.
Lemma apply_shaped (P : addr -> bool) l : Forall (fun w => exists c, at_c w c /\ P c = true) l -> forall s, shaped s -> shaped (fst (apply_ops l s)).
Proof.
  intros F. induction F as [|w l (c' & A & PC) _ IH]; intros s SH; cbn [apply_ops fst]; auto. destruct (s_do w s) as [s1|] eqn:E; auto. eapply IH, s_do_shaped; eauto.
Qed.
(** the writes one after the other are the commit *)
Lemma commit_ops_run r s : commit_into r s = let '(s1, ok) := apply_ops (commit_ops r) s in if ok then Some s1 else None.
Proof.
  unfold commit_into, commit_ops. rewrite apply_app.
  assert (W : forall l s, apply_ops (map (fun e : (addr * N) * svar => OWrite (fst (fst e)) (snd (fst e)) (snd e)) l) s = match write_all l s with Some s1 => (s1, true) | None => (fst (apply_ops (map (fun e : (addr * N) * svar => OWrite (fst (fst e)) (snd (fst e)) (snd e)) l) s), false) end).
  { clear. induction l as [|((c, a), v) l IH]; intros s; cbn [map apply_ops write_all fst snd s_do]; auto. destruct (s_write s c a v); auto. }
  rewrite W. destruct (write_all _ s) as [s1|]; [|reflexivity]. rewrite apply_app.
  assert (W2 : forall l s, apply_ops (map (fun e : (addr * (N * N)) * svar => OEntry (fst (fst e)) (fst (snd (fst e))) (snd (snd (fst e))) (snd e)) l) s = (write_entries l s, true)).
  { clear. induction l as [|e l IH]; intros s; cbn [map apply_ops s_do]; auto. rewrite IH. reflexivity. }
  assert (W3 : forall l s, apply_ops (map (fun e : (addr * addr) * N => OBalance (fst (fst e)) (snd (fst e)) (snd e)) l) s = (set_balances l s, true)).
  { clear. induction l as [|e l IH]; intros s; cbn [map apply_ops s_do]; auto. rewrite IH. reflexivity. }
  rewrite W2, W3. reflexivity.
Qed.

Lemma list_neq_cons {A} (x : A) l : l <> x :: l.
Proof. intros E. apply (f_equal (@length A)) in E. cbn in E. lia. Qed.
(** ** One after the other *)
Section SEQ.
  Variables (n : node) (bal : balances).
  Lemma sequential_app l l' s : sequential n bal (l ++ l') s =
    let '(os, s1) := sequential n bal l s in let '(os', s2) := sequential n bal l' s1 in (os ++ os', s2).
  Proof.
    revert s. induction l as [|t l IH]; intros s; cbn [app sequential].
    - destruct (sequential n bal l' s). reflexivity.
    - destruct (apply_ops _ s) as (s1, ok). rewrite IH. destruct (sequential n bal l s1) as (os, s2). destruct (sequential n bal l' s2) as (os', s3). reflexivity.
  Qed.
  Lemma sequential_length l : forall s, length (fst (sequential n bal l s)) = length l.
  Proof. induction l as [|t l IH]; intros s; cbn [sequential]; auto. destruct (apply_ops _ s) as (s1, ok). specialize (IH s1). destruct (sequential n bal l s1). cbn in *. lia. Qed.
End SEQ.
Lemma firstn_snoc {A} (l : list A) k x : nth_error l k = Some x -> firstn (S k) l = firstn k l ++ [x].
Proof. revert k. induction l as [|y l IH]; intros [|k] E; try discriminate; cbn in *; [congruence|]. now rewrite <- IH. Qed.
Lemma validate_exists n bk t bal : n_exists n (t_id t) = true -> validate n bk t bal = VStatic.
Proof. intros H. unfold validate. rewrite H. destruct (negb _); auto. destruct (_ <? _); auto. destruct (_ <=? _); auto. Qed.

Section PAR.
  Variables (n0 : node) (G : deps) (C : context) (bal : balances) (txs : list tx) (threads : nat) (st0 : storage).
  Hypothesis PREP : prepare_all G context_empty txs = Some C.
  Hypothesis DIST : distinct txs.
  Hypothesis DEP : depends_ok G n0.
  Hypothesis KNOWN : contracts_ok n0.
  Hypothesis SH0 : shaped st0.
  Let n := with_locks C n0.
  Let CX : ctx_ok G C txs := proj1 (prepared G txs C PREP).
  Let ALL := proj2 (prepared G txs C PREP).

  Definition Pr (i : nat) (c : addr) : bool := match nth_error txs i with Some t => n_locked n t c | None => false end.
  Definition sg (k : nat) : storage := snd (sequential n bal (firstn k txs) st0).
  Definition out (k : nat) (t : tx) : outcome := validate n (backend_of (sg k)) t bal.
  Lemma sg_S k t : nth_error txs k = Some t -> sg (S k) = fst (apply_ops (writes (out k t)) (sg k)).
  Proof.
    intros E. unfold sg, out, sg. rewrite (firstn_snoc _ _ _ E), sequential_app. destruct (sequential n bal (firstn k txs) st0) as (os, s1). cbn [sequential snd].
    destruct (apply_ops _ s1). reflexivity.
  Qed.
  Lemma seq_nth k t : nth_error txs k = Some t -> nth_error (fst (sequential n bal txs st0)) k = Some (out k t, snd (apply_ops (writes (out k t)) (sg k))).
  Proof.
    intros E. pose proof (firstn_skipn (S k) txs) as FS. rewrite (firstn_snoc _ _ _ E) in FS. rewrite <- app_assoc in FS.
    assert (LK : (k < length txs)%nat) by (apply nth_error_Some; congruence).
    rewrite <- FS at 1. rewrite sequential_app. unfold out, sg.
    pose proof (sequential_length n bal (firstn k txs) st0) as L. destruct (sequential n bal (firstn k txs) st0) as (os, s1). cbn [fst snd] in *.
    cbn [app sequential]. destruct (apply_ops _ s1) as (s2, ok). destruct (sequential n bal (skipn (S k) txs) s2) as (os', s3). cbn [fst snd].
    rewrite nth_error_app2; rewrite L, firstn_length, Nat.min_l by lia; [|lia]. now rewrite Nat.sub_diag.
  Qed.
  Lemma validate_ext k t bk : nth_error txs k = Some t ->
    agree (Pr k) (backend_of (sg k)) bk -> validate n bk t bal = out k t.
  Proof.
    intros E AG. assert (I : In t txs) by (eapply nth_error_In; eauto). unfold out. destruct (n_contract n0 (t_id t)) eqn:NC.
    - rewrite !validate_exists; auto; apply KNOWN; congruence.
    - destruct (calls_ok G txs C n0 t CX DIST ALL DEP I NC) as (OWN & CALLS). symmetry. apply (validate_same n t (backend_of (sg k)) bk); auto.
      unfold Pr in AG. rewrite E in AG. exact AG.
  Qed.
  Lemma writes_at k t : nth_error txs k = Some t -> Forall (fun w => exists c, at_c w c /\ Pr k c = true) (writes (out k t)).
  Proof.
    intros E. assert (I : In t txs) by (eapply nth_error_In; eauto). unfold writes. destruct (out k t) as [| |r [w|]| |] eqn:O; try constructor.
    apply commit_ops_at. unfold out in O. destruct (n_contract n0 (t_id t)) eqn:NC.
    - rewrite validate_exists in O; [discriminate|]. apply KNOWN; congruence.
    - destruct (calls_ok G txs C n0 t CX DIST ALL DEP I NC) as (OWN & CALLS). unfold Pr. rewrite E. revert O. apply (validate_same n t (backend_of (sg k)) (backend_of (sg k))); auto. split; auto.
  Qed.
  Lemma sg_shaped k : shaped (sg k).
  Proof.
    induction k as [|k IH]; [exact SH0|]. destruct (nth_error txs k) as [t|] eqn:E.
    - rewrite (sg_S k t E). eapply apply_shaped; [apply (writes_at k t E)|auto].
    - unfold sg in *. apply nth_error_None in E. rewrite firstn_all2 by lia. rewrite firstn_all2 in IH by lia. exact IH.
  Qed.
  Lemma sg_off c i : forall k, (i <= k)%nat -> (forall j, (i <= j < k)%nat -> Pr j c = false) -> on c (sg i) (sg k).
  Proof.
    induction k as [|k IH]; intros L H; [replace i with O by lia; apply on_refl, sg_shaped|].
    destruct (Nat.eq_dec i (S k)) as [->|NE]; [apply on_refl, sg_shaped|]. eapply on_trans; [apply IH; [lia|intros; apply H; lia]|].
    destruct (nth_error txs k) as [t|] eqn:E.
    - rewrite (sg_S k t E). apply (apply_off (Pr k)); [apply (writes_at k t E)|apply H; lia|apply sg_shaped].
    - unfold sg. apply nth_error_None in E. rewrite !firstn_all2 by lia. apply on_refl. pose proof (sg_shaped k) as S. unfold sg in S. rewrite firstn_all2 in S by lia. exact S.
  Qed.
  Definition conflict (i j : nat) : Prop := exists c, Pr i c = true /\ Pr j c = true.

  (** the transaction before that has locked the same contract *)
  Lemma Pr_locks i t c : nth_error txs i = Some t -> Pr i c = true <-> In c (locks G t).
  Proof. intros E. unfold Pr. rewrite E. apply locked_iff with (txs := txs); auto. eapply nth_error_In; eauto. Qed.
  Lemma nth_split_tx i t : nth_error txs i = Some t -> txs = firstn i txs ++ t :: skipn (S i) txs.
  Proof. intros E. rewrite <- (firstn_skipn (S i) txs) at 1. rewrite (firstn_snoc _ _ _ E), <- app_assoc. reflexivity. Qed.
  Lemma holders_last c l p : hd_error (holders G c l) = Some p -> exists j t, nth_error l j = Some t /\ t_id t = p /\ In c (locks G t) /\
    forall m t', (j < m)%nat -> nth_error l m = Some t' -> ~ In c (locks G t').
  Proof.
    induction l as [|t l IH] using rev_ind; [discriminate|]. unfold holders. rewrite filter_app, map_app, rev_app_distr. cbn [filter]. destruct (mem c (locks G t)) eqn:M.
    - cbn. intros [= <-]. exists (length l), t. rewrite nth_error_app2, Nat.sub_diag by lia. split; auto. split; auto. split; [now apply mem_In|].
      intros m t' L E. apply (f_equal (fun o => match o with Some _ => true | None => false end)) in E. assert (nth_error (l ++ [t]) m = None) by (apply nth_error_None; rewrite app_length; cbn; lia).
      rewrite H in E. discriminate.
    - cbn. intros HD. destruct (IH HD) as (j & t' & E & ID & IN & LAST). exists j, t'. assert (j < length l)%nat by (apply nth_error_Some; congruence).
      rewrite nth_error_app1 by auto. split; auto. split; auto. split; auto. intros m t2 L E2. destruct (Nat.lt_ge_cases m (length l)).
      + rewrite nth_error_app1 in E2 by auto. eauto.
      + rewrite nth_error_app2 in E2 by auto. destruct (m - length l)%nat as [|q] eqn:Q; cbn in E2; [|destruct q; discriminate]. injection E2 as <-. intros I. apply mem_In in I. congruence.
  Qed.
  Lemma holders_some c l j t : nth_error l j = Some t -> In c (locks G t) -> exists p, hd_error (holders G c l) = Some p.
  Proof.
    intros E I. assert (K : In (t_id t) (holders G c l)) by (apply holders_In; exists t; split; [eapply nth_error_In; eauto|auto]). destruct (holders G c l); [destruct K|]. cbn. eauto.
  Qed.
  Lemma id_inj i j t t' : nth_error txs i = Some t -> nth_error txs j = Some t' -> t_id t = t_id t' -> i = j.
  Proof.
    intros E E' Q. unfold distinct in DIST. rewrite NoDup_nth_error in DIST. apply DIST.
    - rewrite map_length. apply nth_error_Some. congruence.
    - rewrite (map_nth_error t_id _ _ E), (map_nth_error t_id _ _ E'). congruence.
  Qed.
  Lemma nth_firstn {A} (l : list A) k j x : nth_error (firstn k l) j = Some x -> (j < k)%nat /\ nth_error l j = Some x.
  Proof.
    intros E. assert (j < length (firstn k l))%nat by (apply nth_error_Some; congruence). rewrite firstn_length in H. split; [lia|]. rewrite <- E.
    rewrite <- (firstn_skipn k l) at 1. apply nth_error_app1. rewrite firstn_length. lia.
  Qed.
  Lemma nth_firstn2 {A} (l : list A) k j x : (j < k)%nat -> nth_error l j = Some x -> nth_error (firstn k l) j = Some x.
  Proof. intros L E. rewrite <- E. rewrite <- (firstn_skipn k l) at 2. symmetry. apply nth_error_app1. rewrite firstn_length. assert (j < length l)%nat by (apply nth_error_Some; congruence). lia. Qed.
  (** if another before [i] has locked [c], then [i] waits for the last of them *)
  Lemma waits_pred i j t c : nth_error txs i = Some t -> Pr i c = true -> (j < i)%nat -> Pr j c = true ->
    exists k t', (j <= k < i)%nat /\ nth_error txs k = Some t' /\ Pr k c = true /\ In (t_id t, t_id t') (c_wait C) /\ In (t_id t') (c_signal C).
  Proof.
    intros E PI L PJ. destruct (nth_error txs j) as [tj|] eqn:EJ; [|unfold Pr in PJ; rewrite EJ in PJ; discriminate].
    apply (Pr_locks j tj c EJ) in PJ. destruct (holders_some c (firstn i txs) j tj (nth_firstn2 _ _ _ _ L EJ) PJ) as (p & HD).
    destruct (holders_last _ _ _ HD) as (k & t' & EK & ID & IN & LAST). apply nth_firstn in EK as (LK & EK). exists k, t'. split.
    - split; auto. destruct (Nat.le_gt_cases j k); auto. exfalso. eapply LAST; [exact H|apply nth_firstn2; eauto|auto].
    - split; auto. split; [now apply (Pr_locks k t' c EK)|]. split.
      + apply (cx_wait _ _ _ CX). exists (firstn i txs), t, (skipn (S i) txs), c. split; [now apply nth_split_tx|]. split; auto. split; [now apply (Pr_locks i t c E)|congruence].
      + apply (cx_signal _ _ _ CX). exists t'. split; [eapply nth_error_In; eauto|]. split; auto. intros Q. rewrite Q in IN. destruct IN.
  Qed.
  Lemma waits_before i t p : nth_error txs i = Some t -> In (t_id t, p) (c_wait C) -> exists j t', (j < i)%nat /\ nth_error txs j = Some t' /\ p = t_id t'.
  Proof.
    intros E I. apply (cx_wait _ _ _ CX) in I as (l1 & t1 & l2 & a & EQ & ID & IN & HD). assert (E1 : nth_error txs (length l1) = Some t1) by (rewrite EQ, nth_error_app2, Nat.sub_diag by lia; reflexivity).
    assert (i = length l1) by (eapply id_inj; eauto). subst i. destruct (holders_last _ _ _ HD) as (j & t' & EJ & IDJ & _). exists j, t'.
    assert (j < length l1)%nat by (apply nth_error_Some; congruence). split; auto. split; auto. rewrite EQ, nth_error_app1; auto.
  Qed.

  (** ** The invariant *)
  Definition begun (p : phase) : bool := match p with Running _ | Writing _ _ | Finished _ _ => true | _ => false end.
  Definition wrote (p : phase) : bool := match p with Writing _ _ | Finished _ _ => true | _ => false end.
  Definition finished (p : phase) : bool := match p with Finished _ _ => true | _ => false end.
  Record inv (s : pstate) (S : storage) (l : list storage) : Prop := mk_inv {
    iv_hist : p_hist s = S :: l;
    iv_shaped : Forall shaped (S :: l);
    iv_noskip : forall i, p_phase s i <> Skipped;
    iv_range : forall i, p_phase s i <> Queued -> (i < length txs)%nat;
    iv_fifo : forall i j, (i < j)%nat -> p_phase s i = Queued -> p_phase s j = Queued;
    (** a task does not begin before those in its way are finished *)
    iv_order : forall i j, (j < i)%nat -> begun (p_phase s i) = true -> conflict i j -> finished (p_phase s j) = true;
    iv_signal : forall x, In x (p_signal s) -> exists j t, nth_error txs j = Some t /\ x = t_id t /\ finished (p_phase s j) = true;
    iv_signalled : forall j t, nth_error txs j = Some t -> finished (p_phase s j) = true -> In (t_id t) (c_signal C) -> In (t_id t) (p_signal s);
    (** what a task that has not written yet can see *)
    iv_seen : forall i k, p_phase s i = Running k -> (1 <= k <= length (S :: l))%nat /\ forall c s', Pr i c = true -> In s' (firstn (Datatypes.S (length (S :: l) - k)) (S :: l)) -> on c s' (sg i);
    iv_writing : forall i t rest o, p_phase s i = Writing rest o -> nth_error txs i = Some t -> o = out i t /\
      exists done x, writes o = done ++ rest /\ apply_ops done (sg i) = (x, true) /\ forall c, Pr i c = true -> on c S x;
    iv_finished : forall i t o ok, p_phase s i = Finished o ok -> nth_error txs i = Some t -> o = out i t /\ ok = snd (apply_ops (writes o) (sg i));
    (** the contents for a contract, when nobody is writing to it *)
    iv_storage : forall c k, (k <= length txs)%nat -> (forall j, (j < k)%nat -> Pr j c = true -> finished (p_phase s j) = true) ->
      (forall j, (k <= j)%nat -> Pr j c = true -> wrote (p_phase s j) = false) -> on c S (sg k) }.

  Notation step := (step n C bal txs threads false).
  Notation steps := (steps n C bal txs threads false).
  Lemma sp_same i p f : set_phase i p f i = p.
  Proof. unfold set_phase. now rewrite Nat.eqb_refl. Qed.
  Lemma sp_other i p f j : j <> i -> set_phase i p f j = f j.
  Proof. intros NE. unfold set_phase. destruct (Nat.eqb_spec j i); congruence. Qed.
  Ltac sp j i := destruct (Nat.eq_dec j i) as [?EQ|?NE]; [subst j; rewrite ?sp_same in *|rewrite ?sp_other in * by auto].
  Lemma wrote_begun p : wrote p = true -> begun p = true.
  Proof. now destruct p. Qed.
  Lemma finished_begun p : finished p = true -> begun p = true.
  Proof. now destruct p. Qed.
  Lemma finished_wrote p : finished p = true -> wrote p = true.
  Proof. now destruct p. Qed.

  Lemma inv_start : inv (start st0) st0 [].
  Proof.
    constructor; cbn [start p_hist p_phase p_signal]; try congruence; try discriminate; try (intros; contradiction); auto.
    intros c k L H _. apply (sg_off c 0); [lia|]. intros j J. destruct (Pr j c) eqn:E; auto. specialize (H j ltac:(lia) E). discriminate.
  Qed.
  Lemma inv_change s S l i p late : inv s S l -> (i < length txs)%nat -> begun p = false -> begun (p_phase s i) = false -> p <> Skipped -> p <> Queued ->
    (p_phase s i = Queued -> forall j, (j < i)%nat -> p_phase s j <> Queued) ->
    inv (mk_pstate (set_phase i p (p_phase s)) (p_hist s) (p_signal s) late) S l.
  Proof.
    intros [HI SH NS RG FI OR SI SD SE WR FN ST] L B B' NK NQ FIRST.
    assert (W : wrote p = false) by (destruct (wrote p) eqn:Q; auto; apply wrote_begun in Q; congruence).
    assert (W' : wrote (p_phase s i) = false) by (destruct (wrote (p_phase s i)) eqn:Q; auto; apply wrote_begun in Q; congruence).
    assert (F : finished p = false) by (destruct (finished p) eqn:Q; auto; apply finished_begun in Q; congruence).
    assert (F' : finished (p_phase s i) = false) by (destruct (finished (p_phase s i)) eqn:Q; auto; apply finished_begun in Q; congruence).
    constructor; cbn [p_hist p_phase p_signal]; auto.
    - intros j. sp j i; auto.
    - intros j. sp j i; auto.
    - intros a b AB. sp a i; [congruence|]. intros Q. sp b i; [|eauto]. exfalso. apply (FIRST (FI a i AB Q) a AB Q).
    - intros a b AB. sp a i; [congruence|]. intros Q CF. specialize (OR a b AB Q CF). sp b i; auto. congruence.
    - intros x X. destruct (SI x X) as (j & t & E & EX & FJ). exists j, t. split; auto. split; auto. sp j i; congruence.
    - intros j t E. sp j i; [congruence|eauto].
    - intros j k. sp j i; [intros ->; discriminate|eauto].
    - intros j t rest o. sp j i; [intros ->; discriminate|eauto].
    - intros j t o ok. sp j i; [intros ->; discriminate|eauto].
    - intros c k LK H1 H2. apply ST; auto.
      + intros j J PJ. specialize (H1 j J PJ). sp j i; congruence.
      + intros j J PJ. specialize (H2 j J PJ). sp j i; congruence.
  Qed.
  Lemma no_conflict s S l i j : inv s S l -> i <> j -> begun (p_phase s i) = true -> begun (p_phase s j) = true -> finished (p_phase s i) = false -> finished (p_phase s j) = false -> ~ conflict i j.
  Proof.
    intros I NE Bi Bj Fi Fj (c & P1 & P2). destruct (Nat.lt_total i j) as [L|[L|L]]; [|contradiction|].
    - rewrite (iv_order _ _ _ I j i L Bj) in Fi; [discriminate|now exists c].
    - rewrite (iv_order _ _ _ I i j L Bi) in Fj; [discriminate|now exists c].
  Qed.
  Lemma inv_run s S l i t : inv s S l -> p_phase s i = Waiting -> nth_error txs i = Some t -> may_run C (t_id t) (p_signal s) ->
    inv (mk_pstate (set_phase i (Running (length (p_hist s))) (p_phase s)) (p_hist s) (p_signal s) (p_late s)) S l.
  Proof.
    intros I PH E MR. pose proof I as [HI SH NS RG FI OR SI SD SE WR FN ST].
    assert (BEFORE : forall j, (j < i)%nat -> conflict i j -> finished (p_phase s j) = true).
    { intros j J (c & P1 & P2). destruct (waits_pred i j t c E P1 J P2) as (k & t' & K & EK & PK & W & SG).
      specialize (MR (t_id t') W SG). destruct (SI _ MR) as (k' & t'' & EK' & ID & FK). assert (k' = k) by (eapply id_inj; eauto). subst k'.
      destruct (Nat.eq_dec k j) as [->|NE]; auto. apply (OR k j); [lia|now apply finished_begun|exists c; auto]. }
    constructor; cbn [p_hist p_phase p_signal]; auto.
    - intros j. sp j i; auto. discriminate.
    - intros j. sp j i; auto. intros _. apply RG. congruence.
    - intros a b AB. sp a i; [discriminate|]. intros Q. sp b i; [|eauto]. rewrite (FI a i AB Q) in PH. discriminate.
    - intros a b AB. sp a i.
      + intros _ CF. specialize (BEFORE b AB CF). sp b i; auto. lia.
      + intros Q CF. specialize (OR a b AB Q CF). sp b i; auto. rewrite PH in OR. discriminate.
    - intros x X. destruct (SI x X) as (j & t' & E' & EX & FJ). exists j, t'. split; auto. split; auto. sp j i; auto. rewrite PH in FJ. discriminate.
    - intros j t' E'. sp j i; [discriminate|eauto].
    - intros j k. sp j i; [|eauto]. intros [= <-]. rewrite HI. split; [cbn; lia|]. intros c s' PI. rewrite Nat.sub_diag. cbn [firstn]. intros [<-|[]].
      apply ST; [assert (i < length txs)%nat by (apply nth_error_Some; congruence); lia| |].
      + intros j J PJ. apply BEFORE; auto. exists c. auto.
      + intros j J PJ. destruct (wrote (p_phase s j)) eqn:W; auto. destruct (Nat.eq_dec j i) as [->|NE]; [rewrite PH in W; discriminate|].
        assert (F : finished (p_phase s i) = true) by (apply (OR j i); [lia|now apply wrote_begun|exists c; auto]). rewrite PH in F. discriminate.
    - intros j t' rest o. sp j i; [discriminate|eauto].
    - intros j t' o ok. sp j i; [discriminate|eauto].
    - intros c k LK H1 H2. apply ST; auto.
      + intros j J PJ. specialize (H1 j J PJ). sp j i; auto. discriminate.
      + intros j J PJ. specialize (H2 j J PJ). sp j i; auto. now rewrite PH.
  Qed.
  Lemma answers_agree s S l i k bk : inv s S l -> p_phase s i = Running k -> answers (firstn (Datatypes.S (length (p_hist s) - k)) (p_hist s)) bk -> agree (Pr i) (backend_of (sg i)) bk.
  Proof.
    intros I PH [A1 A2 A3 A4]. destruct (iv_seen _ _ _ I i k PH) as (_ & SEEN). rewrite (iv_hist _ _ _ I) in *. split.
    - intros c a PC. destruct (A1 c a) as (s' & IN & ->). apply on_read. eauto.
    - intros c a k' PC. destruct (A2 c a k') as (s' & IN & ->). apply on_entry. eauto.
    - intros c v PC. destruct (A3 c v) as (s' & IN & ->). apply on_lookup. eauto.
    - intros c cur PC. destruct (A4 c cur) as (s' & IN & ->). apply on_balance. eauto.
  Qed.
  Lemma inv_validate s S l i t k bk : inv s S l -> p_phase s i = Running k -> nth_error txs i = Some t -> answers (firstn (Datatypes.S (length (p_hist s) - k)) (p_hist s)) bk ->
    inv (mk_pstate (set_phase i (let o := validate n bk t bal in Writing (writes o) o) (p_phase s)) (p_hist s) (p_signal s) (p_late s)) S l.
  Proof.
    intros I PH E AN. pose proof I as [HI SH NS RG FI OR SI SD SE WR FN ST].
    rewrite (validate_ext i t bk E (answers_agree _ _ _ _ _ _ I PH AN)). cbv zeta.
    constructor; cbn [p_hist p_phase p_signal]; auto.
    - intros j. sp j i; auto. discriminate.
    - intros j. sp j i; auto. intros _. apply RG. congruence.
    - intros a b AB. sp a i; [discriminate|]. intros Q. sp b i; [|eauto]. rewrite (FI a i AB Q) in PH. discriminate.
    - intros a b AB. sp a i.
      + intros _ CF. rewrite sp_other by lia. apply (OR i b AB); auto. now rewrite PH.
      + intros Q CF. specialize (OR a b AB Q CF). sp b i; auto. rewrite PH in OR. discriminate.
    - intros x X. destruct (SI x X) as (j & t' & E' & EX & FJ). exists j, t'. split; auto. split; auto. sp j i; auto. rewrite PH in FJ. discriminate.
    - intros j t' E'. sp j i; [discriminate|eauto].
    - intros j k'. sp j i; [discriminate|eauto].
    - intros j t' rest o. sp j i; [|eauto]. intros [= <- <-] E'. replace t' with t by congruence. split; auto. exists [], (sg i). split; auto. split; auto.
      intros c PC. destruct (SE i k PH) as (_ & SEEN). apply SEEN; auto. now left.
    - intros j t' o ok. sp j i; [discriminate|eauto].
    - intros c k' LK H1 H2. apply ST; auto.
      + intros j J PJ. specialize (H1 j J PJ). sp j i; auto. discriminate.
      + intros j J PJ. specialize (H2 j J PJ). sp j i; auto. now rewrite PH.
  Qed.
  Lemma writes_in i t done w ws : nth_error txs i = Some t -> writes (out i t) = done ++ w :: ws -> exists c, at_c w c /\ Pr i c = true.
  Proof. intros E W. pose proof (writes_at i t E) as F. rewrite W, Forall_app in F. destruct F as (_ & F). now inversion F. Qed.
  Lemma inv_write s S l i w ws o st' : inv s S l -> p_phase s i = Writing (w :: ws) o -> s_do w S = Some st' ->
    inv (mk_pstate (set_phase i (Writing ws o) (p_phase s)) (st' :: S :: l) (p_signal s) (p_late s)) st' (S :: l).
  Proof.
    intros I PH DO. pose proof I as [HI SH NS RG FI OR SI SD SE WR FN ST].
    assert (LI : (i < length txs)%nat) by (apply RG; congruence). destruct (nth_error txs i) as [t|] eqn:E; [|apply nth_error_None in E; lia].
    destruct (WR i t _ _ PH E) as (-> & dn & x & WE & AP & ON). destruct (writes_in i t dn w ws E WE) as (cw & AT & PW).
    assert (SHS : shaped S) by (inversion SH; auto).
    assert (SH' : shaped st') by (exact (s_do_shaped w cw S st' AT SHS DO)).
    assert (OFF : forall c, Pr i c = false -> on c S st') by (intros c PC; eapply s_do_off; eauto; congruence).
    assert (OFF' : forall c j, j <> i -> begun (p_phase s j) = true -> finished (p_phase s j) = false -> Pr j c = true -> on c S st').
    { intros c j NE B F PJ. apply OFF. destruct (Pr i c) eqn:PI; auto. exfalso.
      apply (no_conflict s S l j i I NE); auto; try (rewrite PH; reflexivity). now exists c. }
    constructor; cbn [p_hist p_phase p_signal]; auto.
    - intros j. sp j i; auto. discriminate.
    - intros j. sp j i; auto.
    - intros a b AB. sp a i; [discriminate|]. intros Q. sp b i; [|eauto]. rewrite (FI a i AB Q) in PH. discriminate.
    - intros a b AB. sp a i.
      + intros _ CF. rewrite sp_other by lia. apply (OR i b AB); auto. now rewrite PH.
      + intros Q CF. specialize (OR a b AB Q CF). sp b i; auto. rewrite PH in OR. discriminate.
    - intros y X. destruct (SI y X) as (j & t' & E' & EX & FJ). exists j, t'. split; auto. split; auto. sp j i; auto. rewrite PH in FJ. discriminate.
    - intros j t' E'. sp j i; [discriminate|eauto].
    - intros j k. sp j i; [discriminate|]. intros PJ. destruct (SE j k PJ) as (K & SEEN). split; [cbn [length] in *; lia|]. intros c s' PC IN.
      replace (length (st' :: S :: l) - k)%nat with (Datatypes.S (length (S :: l) - k)) in IN by (cbn [length] in *; lia). cbn [firstn] in IN. destruct IN as [<-|IN]; [|apply SEEN; auto].
      eapply on_trans; [apply on_sym; apply (OFF' c j); auto; rewrite PJ; reflexivity|]. apply SEEN; auto. now left.
    - intros j t' rest o. sp j i.
      + intros [= <- <-] E'. replace t' with t in * by congruence. split; auto. destruct (s_do_on cw w S x st' AT (ON cw PW) DO) as (x1 & DX & OX).
        exists (dn ++ [w]), x1. split; [rewrite <- app_assoc; exact WE|]. split; [rewrite apply_app, AP; cbn [apply_ops]; now rewrite DX|].
        intros c PC. destruct (addr_eqb_spec cw c) as [<-|NE]; [exact OX|]. eapply on_trans; [apply on_sym, (s_do_off c cw w S st' SHS AT NE DO)|].
        eapply on_trans; [exact (ON c PC)|]. apply (s_do_off c cw w x x1); auto. destruct (ON c PC) as (? & r' & d & _ & -> & _). now exists r', d.
      + intros PJ E'. destruct (WR j t' _ _ PJ E') as (-> & dn' & x' & WE' & AP' & ON'). split; auto. exists dn', x'. split; auto. split; auto.
        intros c PC. eapply on_trans; [apply on_sym; apply (OFF' c j); auto; rewrite PJ; reflexivity|]. auto.
    - intros j t' o ok. sp j i; [discriminate|eauto].
    - intros c k LK H1 H2. destruct (Pr i c) eqn:PI.
      + exfalso. destruct (Nat.lt_ge_cases i k) as [L|L]; [specialize (H1 i L PI)|specialize (H2 i L PI)]; rewrite sp_same in *; discriminate.
      + eapply on_trans; [apply on_sym, OFF; auto|]. apply ST; auto.
        * intros j J PJ. specialize (H1 j J PJ). sp j i; congruence.
        * intros j J PJ. specialize (H2 j J PJ). sp j i; congruence.
  Qed.
  Lemma inv_finish s S l i t rest o ok : inv s S l -> p_phase s i = Writing rest o -> nth_error txs i = Some t ->
    (rest = [] /\ ok = true \/ exists w ws, rest = w :: ws /\ s_do w S = None /\ ok = false) ->
    inv (mk_pstate (set_phase i (Finished o ok) (p_phase s)) (p_hist s) (if mem (t_id t) (c_signal C) then t_id t :: p_signal s else p_signal s) (p_late s)) S l.
  Proof.
    intros I PH E CASE. pose proof I as [HI SH NS RG FI OR SI SD SE WR FN ST].
    assert (LI : (i < length txs)%nat) by (apply RG; congruence).
    destruct (WR i t _ _ PH E) as (-> & dn & x & WE & AP & ON).
    assert (RES : apply_ops (writes (out i t)) (sg i) = (x, ok)).
    { rewrite WE, apply_app, AP. destruct CASE as [(-> & ->)|(w & ws & -> & NO & ->)]; auto. destruct (writes_in i t dn w ws E WE) as (cw & AT & PW).
      cbn [apply_ops]. rewrite (s_do_none cw w S x AT (ON cw PW) NO). reflexivity. }
    constructor; cbn [p_hist p_phase p_signal]; auto.
    - intros j. sp j i; auto. discriminate.
    - intros j. sp j i; auto.
    - intros a b AB. sp a i; [discriminate|]. intros Q. sp b i; [|eauto]. rewrite (FI a i AB Q) in PH. discriminate.
    - intros a b AB. sp a i.
      + intros _ CF. rewrite sp_other by lia. apply (OR i b AB); auto. now rewrite PH.
      + intros Q CF. specialize (OR a b AB Q CF). sp b i; auto.
    - intros y X. assert (y = t_id t \/ In y (p_signal s)) as [->|Y] by (destruct (mem (t_id t) (c_signal C)); [destruct X; auto|auto]).
      + exists i, t. rewrite sp_same. auto.
      + destruct (SI y Y) as (j & t' & E' & EX & FJ). exists j, t'. split; auto. split; auto. sp j i; auto.
    - intros j t' E'. sp j i.
      + intros _ SG. replace t' with t in * by congruence. apply mem_In in SG. rewrite SG. now left.
      + intros F SG. specialize (SD j t' E' F SG). destruct (mem (t_id t) (c_signal C)); auto. now right.
    - intros j k. sp j i; [discriminate|eauto].
    - intros j t' rest' o. sp j i; [discriminate|eauto].
    - intros j t' o ok'. sp j i; [|eauto]. intros [= <- <-] E'. replace t' with t by congruence. split; auto. now rewrite RES.
    - intros c k LK H1 H2. destruct (Pr i c) eqn:PI.
      + destruct (Nat.lt_ge_cases i k) as [L|L]; [|specialize (H2 i L PI); rewrite sp_same in H2; discriminate].
        eapply on_trans; [exact (ON c PI)|]. replace x with (sg (Datatypes.S i)) by (rewrite (sg_S i t E), RES; reflexivity).
        apply sg_off; auto. intros j J. destruct (Pr j c) eqn:PJ; auto. exfalso. specialize (H1 j ltac:(lia) PJ). rewrite sp_other in H1 by lia.
        specialize (OR j i ltac:(lia) (finished_begun _ H1)). rewrite PH in OR. discriminate OR. now exists c.
      + apply ST; auto.
        * intros j J PJ. specialize (H1 j J PJ). sp j i; congruence.
        * intros j J PJ. specialize (H2 j J PJ). sp j i; congruence.
  Qed.
  Lemma inv_step s S l s' : inv s S l -> step s s' -> exists S' l', inv s' S' l'.
  Proof.
    intros I H. inversion H; subst; clear H.
    - exists S, l. apply inv_change; auto; try discriminate. now rewrite H1.
    - discriminate.
    - discriminate.
    - exists S, l. apply inv_change; auto; try discriminate; try (rewrite H0; (reflexivity || discriminate)). apply (iv_range _ _ _ I). congruence.
    - exists S, l. eapply inv_run; eauto.
    - exists S, l. eapply inv_validate; eauto.
    - rewrite (iv_hist _ _ _ I) in H1. injection H1 as <- <-. eexists _, _. eapply inv_write; eauto.
    - rewrite (iv_hist _ _ _ I) in H2. injection H2 as <- <-. exists S, l. eapply inv_finish; eauto 8.
    - exists S, l. eapply inv_finish; eauto.
  Qed.
  Theorem reach k s : steps (start st0) k s -> exists S l, inv s S l.
  Proof. induction 1 as [|k s s' _ (S & l & I) ST]; [eexists _, _; apply inv_start|]. eapply inv_step; eauto. Qed.

  Theorem parallel_result k s : steps (start st0) k s ->
    (forall i o ok, p_phase s i = Finished o ok -> nth_error (fst (sequential n bal txs st0)) i = Some (o, ok)) /\
    (all_done txs s -> length (fst (sequential n bal txs st0)) = length txs /\
       (forall i, (i < length txs)%nat -> exists o ok, p_phase s i = Finished o ok) /\
       exists S l, p_hist s = S :: l /\ same_contents S (snd (sequential n bal txs st0))).
  Proof.
    intros ST. destruct (reach k s ST) as (S & l & I).
    assert (FIN : forall i o ok, p_phase s i = Finished o ok -> nth_error (fst (sequential n bal txs st0)) i = Some (o, ok)).
    { intros i o ok PH. assert (LI : (i < length txs)%nat) by (apply (iv_range _ _ _ I); congruence).
      destruct (nth_error txs i) as [t|] eqn:E; [|apply nth_error_None in E; lia]. rewrite (seq_nth i t E). destruct (iv_finished _ _ _ I i t o ok PH E) as (-> & ->). reflexivity. }
    split; auto. intros D. split; [apply sequential_length|].
    assert (AF : forall i, (i < length txs)%nat -> exists o ok, p_phase s i = Finished o ok).
    { intros i L. destruct (D i L) as (NQ & NA). pose proof (iv_noskip _ _ _ I i). destruct (p_phase s i); try discriminate; try congruence. eauto. }
    split; auto. exists S, l. split; [apply (iv_hist _ _ _ I)|].
    assert (ON : forall c, on c S (sg (length txs))).
    { intros c. apply (iv_storage _ _ _ I); auto.
      - intros j J _. destruct (AF j J) as (o & ok & ->). reflexivity.
      - intros j J PJ. unfold Pr in PJ. destruct (nth_error txs j) eqn:E; [|discriminate]. assert (j < length txs)%nat by (apply nth_error_Some; congruence). lia. }
    unfold sg in ON. rewrite firstn_all in ON. split; [|split; [|split]]; intros; [apply on_read|apply on_entry|apply on_lookup|apply on_balance]; auto.
  Qed.

  (** ** It comes to an end *)
  Lemma least (P : nat -> bool) : forall m, (forall i, (i < m)%nat -> P i = true) \/ exists i, (i < m)%nat /\ P i = false /\ forall j, (j < i)%nat -> P j = true.
  Proof.
    induction m as [|m [IH|(i & L & N & B)]]; [left; lia| |right; exists i; auto].
    destruct (P m) eqn:E; [left; intros i L; destruct (Nat.eq_dec i m) as [->|]; auto; apply IH; lia|right; exists m; auto].
  Qed.
  Theorem progress k s : (0 < threads)%nat -> steps (start st0) k s -> all_done txs s \/ exists s', step s s'.
  Proof.
    intros TH ST. destruct (reach k s ST) as (S & l & I). destruct (least (fun i => finished (p_phase s i)) (length txs)) as [D|(i & L & N & B)].
    { left. intros i L. specialize (D i L). destruct (p_phase s i); try discriminate. split; [discriminate|reflexivity]. }
    right. destruct (nth_error txs i) as [t|] eqn:E; [|apply nth_error_None in E; lia]. pose proof (iv_hist _ _ _ I) as HI. destruct (p_phase s i) as [| | |k'|[|w ws] o|o ok|] eqn:PH.
    - eexists. eapply (step_pick _ _ _ _ _ _ i); eauto.
      + intros j J Q. specialize (B j J). rewrite Q in B. discriminate.
      + replace (count_active txs (p_phase s)) with O; auto. unfold count_active. symmetry. apply length_zero_iff_nil.
        assert (K : forall m l, (forall j, In j l -> active (p_phase s j) = false) -> filter (fun i => active (p_phase s i)) l = m -> m = []).
        { intros m l0 HA <-. induction l0 as [|j l0 IH]; auto. cbn [filter]. rewrite HA by now left. apply IH. intros; apply HA; now right. }
        eapply K; [|reflexivity]. intros j _. destruct (Nat.lt_total j i) as [J|[->|J]].
        * specialize (B j J). now destruct (p_phase s j).
        * now rewrite PH.
        * now rewrite (iv_fifo _ _ _ I i j J PH).
    - eexists. eapply (step_begin _ _ _ _ _ _ i); eauto.
    - eexists. eapply (step_run _ _ _ _ _ _ i t); eauto. intros p W SG. destruct (waits_before i t p E W) as (j & t' & J & EJ & ->).
      eapply (iv_signalled _ _ _ I); eauto.
    - eexists. eapply (step_validate _ _ _ _ _ _ i t k' (backend_of S)); eauto. rewrite HI. split; intros; exists S; (split; [now left|reflexivity]).
    - eexists. eapply (step_signal _ _ _ _ _ _ i); eauto.
    - destruct (s_do w S) as [st'|] eqn:DO; eexists; [eapply (step_write _ _ _ _ _ _ i); eauto|eapply (step_throw _ _ _ _ _ _ i); eauto].
    - discriminate.
    - exfalso. eapply (iv_noskip _ _ _ I); eauto.
  Qed.

  Definition size_out (i : nat) : nat := match nth_error txs i with Some t => length (writes (out i t)) | None => 0 end.
  Definition left_of (i : nat) (p : phase) : nat :=
    match p with Queued => 5 + size_out i | Picked => 4 + size_out i | Waiting => 3 + size_out i | Running _ => 2 + size_out i
               | Writing rest _ => 1 + length rest | Finished _ _ | Skipped => 0 end.
  Fixpoint total_left (f : nat -> phase) (m : nat) : nat := match m with O => 0 | Datatypes.S m => left_of m (f m) + total_left f m end.
  Lemma total_set f i p m : (i < m)%nat -> (total_left (set_phase i p f) m + left_of i (f i) = total_left f m + left_of i p)%nat.
  Proof.
    assert (K : forall m, (m <= i)%nat -> total_left (set_phase i p f) m = total_left f m).
    { induction m0 as [|m0 IH]; intros L; auto. cbn [total_left]. rewrite IH by lia. now rewrite sp_other by lia. }
    induction m as [|m IH]; intros L; [lia|]. cbn [total_left]. destruct (Nat.eq_dec m i) as [->|NE].
    - rewrite sp_same, K; lia.
    - rewrite sp_other by auto. specialize (IH ltac:(lia)). lia.
  Qed.
  Lemma left_step s S l s' : inv s S l -> step s s' -> (total_left (p_phase s') (length txs) < total_left (p_phase s) (length txs))%nat.
  Proof.
    intros I H. assert (LT : forall i, p_phase s i <> Queued -> (i < length txs)%nat) by apply (iv_range _ _ _ I).
    inversion H; subst; clear H; try discriminate; cbn [p_phase];
    match goal with |- (total_left (set_phase ?i ?p ?f) ?m < _)%nat => assert (LI : (i < length txs)%nat) by (auto; apply LT; congruence); pose proof (total_set f i p m LI) as T end;
    rewrite H0 in T || rewrite H1 in T; cbn [left_of length] in T; try lia.
    rewrite (validate_ext i t bk H1 (answers_agree _ _ _ _ _ _ I H0 H2)) in *. unfold size_out in T. rewrite H1 in T. lia.
  Qed.
  Theorem bounded k s : steps (start st0) k s -> (k + total_left (p_phase s) (length txs) <= total_left (fun _ => Queued) (length txs))%nat.
  Proof.
    induction 1 as [|k s s' ST IH STEP]; [cbn; lia|]. destruct (reach k s ST) as (S & l & I). pose proof (left_step s S l s' I STEP). lia.
  Qed.
  Lemma total_spec : forall m, (m <= length txs)%nat -> total_left (fun _ => Queued) m = list_sum (map (fun r => 5 + length (writes (fst r)))%nat (firstn m (fst (sequential n bal txs st0)))).
  Proof.
    induction m as [|m IH]; intros L; auto. destruct (nth_error txs m) as [t|] eqn:E; [|apply nth_error_None in E; lia].
    rewrite (firstn_snoc _ _ _ (seq_nth m t E)), map_app, list_sum_app, <- IH by lia. cbn [total_left left_of map list_sum fold_right fst]. unfold size_out. rewrite E. lia.
  Qed.
  Theorem bounded_spec k s : steps (start st0) k s -> (k <= list_sum (map (fun r => 5 + length (writes (fst r)))%nat (fst (sequential n bal txs st0))))%nat.
  Proof.
    intros ST. pose proof (bounded k s ST) as B. rewrite total_spec in B by auto. rewrite <- (sequential_length n bal txs st0), firstn_all in B. lia.
  Qed.

  (** ** With a deadline *)
  Notation lstep := (ParModel.step n C bal txs threads true).
  Notation lsteps := (ParModel.steps n C bal txs threads true).
  Record linv (s : pstate) : Prop := mk_linv {
    lv_hist : p_hist s <> [];
    lv_range : forall i, p_phase s i <> Queued -> (i < length txs)%nat;
    lv_fifo : forall i j, (i < j)%nat -> p_phase s i = Queued -> p_phase s j = Queued;
    lv_signalled : forall j t, nth_error txs j = Some t -> finished (p_phase s j) = true -> In (t_id t) (c_signal C) -> In (t_id t) (p_signal s) }.
  Lemma linv_set s i p hist late : linv s -> (i < length txs)%nat -> p <> Queued -> finished p = false -> hist <> [] -> (p_phase s i = Queued -> forall j, (j < i)%nat -> p_phase s j <> Queued) ->
    linv (mk_pstate (set_phase i p (p_phase s)) hist (p_signal s) late).
  Proof.
    intros [HI RG FI SD] LI NQ NF NH FIRST. constructor; cbn [p_hist p_phase p_signal]; auto.
    - intros j. sp j i; auto.
    - intros a b AB. sp a i; [congruence|]. intros Q. sp b i; [|eauto]. exfalso. apply (FIRST (FI a i AB Q) a AB Q).
    - intros j t E. sp j i; [congruence|eauto].
  Qed.
  Lemma linv_fin s i t o ok : linv s -> (i < length txs)%nat -> p_phase s i <> Queued -> nth_error txs i = Some t ->
    linv (mk_pstate (set_phase i (Finished o ok) (p_phase s)) (p_hist s) (if mem (t_id t) (c_signal C) then t_id t :: p_signal s else p_signal s) (p_late s)).
  Proof.
    intros [HI RG FI SD] LI NQ E. constructor; cbn [p_hist p_phase p_signal]; auto.
    - intros j. sp j i; auto.
    - intros a b AB. sp a i; [congruence|]. intros Q. sp b i; [|eauto]. exfalso. apply NQ. eauto.
    - intros j t' E'. sp j i.
      + intros _ SG. replace t' with t in * by congruence. apply mem_In in SG. rewrite SG. now left.
      + intros F SG. specialize (SD j t' E' F SG). destruct (mem (t_id t) (c_signal C)); auto. now right.
  Qed.
  Lemma linv_step s s' : linv s -> lstep s s' -> linv s'.
  Proof.
    intros I H. pose proof I as [HI RG FI SD].
    inversion H; subst; clear H; try (apply linv_fin; auto; try (apply RG); congruence);
    try (apply linv_set; auto; try discriminate; try (apply RG); congruence). constructor; auto.
  Qed.
  Lemma lreach k s : lsteps (start st0) k s -> linv s.
  Proof.
    induction 1 as [|k s s' _ I ST]; [|eapply linv_step; eauto]. constructor; cbn [start p_hist p_phase p_signal]; try congruence; try discriminate.
  Qed.
  Theorem lprogress k s : (0 < threads)%nat -> lsteps (start st0) k s ->
    all_done txs s \/ (exists s' i, lstep s s' /\ p_phase s' i <> p_phase s i) \/
    exists i j t t', nth_error txs i = Some t /\ nth_error txs j = Some t' /\ (j < i)%nat /\ p_phase s i = Waiting /\ p_phase s j = Skipped /\ exists c, In c (locks G t) /\ In c (locks G t').
  Proof.
    intros TH ST. pose proof (lreach k s ST) as [HI RG FI SD]. destruct (p_hist s) as [|S l] eqn:HE; [congruence|].
    destruct (least (fun i => finished (p_phase s i) || match p_phase s i with Skipped => true | _ => false end) (length txs)) as [D|(i & L & N & B)].
    { left. intros i L. specialize (D i L). destruct (p_phase s i); try discriminate; (split; [discriminate|reflexivity]). }
    right. destruct (nth_error txs i) as [t|] eqn:E; [|apply nth_error_None in E; lia].
    destruct (p_phase s i) as [| | |k'|[|w ws] o|o ok|] eqn:PH; try discriminate.
    - left. eexists _, i. split; [eapply (step_pick _ _ _ _ _ _ i); eauto|cbn [p_phase]; rewrite sp_same; congruence].
      + intros j J Q. specialize (B j J). rewrite Q in B. discriminate.
      + replace (count_active txs (p_phase s)) with O; auto. unfold count_active. symmetry. apply length_zero_iff_nil.
        assert (K : forall m l, (forall j, In j l -> active (p_phase s j) = false) -> filter (fun i => active (p_phase s i)) l = m -> m = []).
        { intros m l0 HA <-. induction l0 as [|j l0 IH]; auto. cbn [filter]. rewrite HA by now left. apply IH. intros; apply HA; now right. }
        eapply K; [|reflexivity]. intros j _. destruct (Nat.lt_total j i) as [J|[->|J]].
        * specialize (B j J). now destruct (p_phase s j).
        * now rewrite PH.
        * now rewrite (FI i j J PH).
    - left. destruct (p_late s) eqn:LT; eexists _, i.
      + split; [eapply (step_skip _ _ _ _ _ _ i); eauto|cbn [p_phase]; rewrite sp_same, PH; discriminate].
      + split; [eapply (step_begin _ _ _ _ _ _ i); eauto|cbn [p_phase]; rewrite sp_same, PH; discriminate].
    - destruct (forallb (fun e => negb (addr_eqb (fst e) (t_id t)) || negb (mem (snd e) (c_signal C)) || mem (snd e) (p_signal s)) (c_wait C)) eqn:FB.
      + left. eexists _, i. split; [eapply (step_run _ _ _ _ _ _ i t); eauto|cbn [p_phase]; rewrite sp_same, PH; discriminate].
        intros p W SG. rewrite forallb_forall in FB. specialize (FB _ W). cbn [fst snd] in FB. rewrite addr_eqb_refl in FB. apply mem_In in SG. rewrite SG in FB. now apply mem_In.
      + right. assert (X : exists p, In (t_id t, p) (c_wait C) /\ In p (c_signal C) /\ ~ In p (p_signal s)).
        { clear - FB. induction (c_wait C) as [|(x, p) w IH]; [discriminate|]. cbn [forallb fst snd] in FB. apply andb_false_iff in FB as [FB|FB].
          - apply orb_false_iff in FB as (FB & F3). apply orb_false_iff in FB as (F1 & F2). destruct (addr_eqb_spec x (t_id t)) as [->|]; [|discriminate].
            exists p. split; [now left|]. split; [apply mem_In; now destruct (mem p (c_signal C))|]. intros I. apply mem_In in I. congruence.
          - destruct (IH FB) as (p' & I & R). exists p'. split; auto. now right. }
        destruct X as (p & W & SG & NS). pose proof W as W'. apply (cx_wait _ _ _ CX) in W' as (l1 & t1 & l2 & a & EQ & ID & IN & HD).
        assert (E1 : nth_error txs (length l1) = Some t1) by (rewrite EQ, nth_error_app2, Nat.sub_diag by lia; reflexivity).
        assert (i = length l1) by (eapply id_inj; eauto). subst i. replace t1 with t in * by congruence. destruct (holders_last _ _ _ HD) as (j & t' & EJ & IDJ & INJ & _).
        assert (J : (j < length l1)%nat) by (apply nth_error_Some; congruence). assert (EJ' : nth_error txs j = Some t') by (rewrite EQ, nth_error_app1; auto).
        exists (length l1), j, t, t'. split; auto. split; auto. split; auto. split; auto. split; [|now exists a]. specialize (B j J).
        destruct (p_phase s j) eqn:PJ; try discriminate; auto. exfalso. apply NS. rewrite <- IDJ in *. eapply SD; eauto. now rewrite PJ.
    - left. eexists _, i. split; [eapply (step_validate _ _ _ _ _ _ i t k' (backend_of S)); eauto|cbn [p_phase]; rewrite sp_same, PH; discriminate].
      rewrite HE. split; intros; exists S; (split; [now left|reflexivity]).
    - left. eexists _, i. split; [eapply (step_signal _ _ _ _ _ _ i); eauto|cbn [p_phase]; rewrite sp_same, PH; discriminate].
    - left. destruct (s_do w S) as [st'|] eqn:DO; eexists _, i.
      + split; [eapply (step_write _ _ _ _ _ _ i); eauto|cbn [p_phase]; rewrite sp_same, PH]. intros Q. injection Q. apply list_neq_cons.
      + split; [eapply (step_throw _ _ _ _ _ _ i); eauto|cbn [p_phase]; rewrite sp_same, PH; discriminate].
  Qed.
End PAR.
