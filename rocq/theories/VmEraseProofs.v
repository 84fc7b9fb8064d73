(** C52: what happens to an erased entry up to the end of the call *)
Require Import List Arith NArith ZArith Bool Lia.
From Verif Require Import BytesLib OrdLib VarModel InstrModel EngineModel EngineSpec ExecModel ExecSpec EngineProofs EngineUpper EngineVis.
Import ListNotations.
Open Scope N_scope.

Section ERASE.
  Variable bk : backend.
  Variable l0 : loc.
  Definition stored (s : st) : Prop := exists o, cell s l0 = Some o /\ f_stored (o_fl o) = true.
  Definition gone (s : st) : Prop := exists o, cell s l0 = Some o /\ f_stored (o_fl o) = true /\ f_deleted (o_fl o) = true /\
    f_dirty (o_fl o) = true /\ o_rc o = 0 /\ o_val o = VNil.
  Record R (s s' : st) : Prop := mk_R {
    r_stored : stored s -> stored s'; r_gone : gone s -> gone s';
    r_sorted : asorted entcmp (s_ent s) -> asorted entcmp (s_ent s'); r_rest : rest s' = rest s }.
  Lemma R_refl s : R s s. Proof. split; auto. Qed.
  Lemma R_trans s1 s2 s3 : R s1 s2 -> R s2 s3 -> R s1 s3.
  Proof. intros [] []. split; auto. congruence. Qed.
  Definition RP {A} (m : M A) (s : st) : Prop := match m s with Ok _ s' => R s s' | _ => True end.
  Lemma RP_bind A B (m : M A) (k : A -> M B) s : RP m s -> (forall a s1, m s = Ok a s1 -> RP (k a) s1) -> RP (bind m k) s.
  Proof.
    unfold RP, bind. intros H K. destruct (m s) as [a s1|s1|s1|]; auto. specialize (K a s1 eq_refl).
    destruct (k a s1); auto. eapply R_trans; eauto.
  Qed.
  Lemma RP_ret A (a : A) s : RP (ret a) s. Proof. apply R_refl. Qed.
  Lemma RP_throw A s : RP (@throw A) s. Proof. exact Logic.I. Qed.
  Lemma RP_check_gas s : RP check_gas s. Proof. unfold RP, check_gas. destruct (_ <? _); auto. apply R_refl. Qed.
  Lemma R_same s s' : s_mem s' = s_mem s -> s_ent s' = s_ent s -> rest s' = rest s -> R s s'.
  Proof.
    intros M1 E1 R1. assert (forall l, cell s' l = cell s l) as C. { intros []; unfold cell; rewrite ?M1, ?E1; auto. }
    split; auto; unfold stored, gone; try rewrite C; auto. rewrite E1. auto.
  Qed.
  Lemma RP_add_gas n s : RP (add_gas n) s. Proof. apply R_same; reflexivity. Qed.
  (** an object that takes the place of another one *)
  Lemma R_put l o s : (l = l0 -> stored s -> f_stored (o_fl o) = true) ->
    (l = l0 -> gone s -> f_deleted (o_fl o) = true /\ f_dirty (o_fl o) = true /\ o_rc o = 0 /\ o_val o = VNil) -> R s (put_cell l o s).
  Proof.
    intros H1 H2. split.
    - intros H. destruct (loc_eqb_spec l0 l) as [E|E].
      + exists o. rewrite E, cell_put_same. split; auto.
      + destruct H as (p & P & F). exists p. rewrite cell_put_other; auto.
    - intros H. destruct (loc_eqb_spec l0 l) as [E|E].
      + exists o. rewrite E, cell_put_same. split; auto. symmetry in E. destruct (H2 E H) as (A & B & C & D).
        split; auto. apply H1; auto. destruct H as (p & P & F & _). exists p. auto.
      + destruct H as (p & P & F). exists p. rewrite cell_put_other; auto.
    - destruct l; simpl; auto. intros S. apply aset_sorted; auto. exact entcmp_total.
    - apply rest_put.
  Qed.
  Lemma R_put_none l o s : cell s l = None -> R s (put_cell l o s).
  Proof.
    intros C. apply R_put.
    - intros -> (p & P & _). congruence.
    - intros -> (p & P & _). congruence.
  Qed.
  Lemma R_put_flags l o p s : cell s l = Some p -> f_stored (o_fl o) = f_stored (o_fl p) -> f_deleted (o_fl p) = false -> R s (put_cell l o s).
  Proof.
    intros C F D. apply R_put.
    - intros -> (q & Q & S). rewrite F. congruence.
    - intros -> (q & Q & S & D' & _). congruence.
  Qed.
  Lemma R_next_id s n : R s (set_next_id n s). Proof. apply R_same; reflexivity. Qed.
  Lemma RP_put_stored_none l v s : cell s l = None -> RP (put_stored l v) s.
  Proof.
    intros C. unfold RP, put_stored, put_new. eapply R_trans; [apply (R_next_id s (s_next_id s + 1))|]. apply R_put_none.
    destruct l; exact C.
  Qed.
  Lemma stor_read_same a s v s' : stor_read bk a s = Ok v s' -> exists n, s' = set_gas n s.
  Proof. intros H. apply stor_read_ok in H. tauto. Qed.
  Lemma RP_stor_read a s : RP (stor_read bk a) s.
  Proof.
    unfold RP. destruct (stor_read bk a s) as [v s'|s'|s'|] eqn:E; auto. apply stor_read_same in E as (n & ->). apply R_same; reflexivity.
  Qed.
  Lemma read_mem_only a s o s' : read bk a true s = Ok o s' -> s' = s /\ (forall c, o = Some c -> cell s (LMem a) = Some c /\ f_deleted (o_fl c) = false).
  Proof.
    unfold read. intros H. apply bind_ok in H as (s1 & s2 & E1 & H). injection E1 as <- <-.
    destruct (cell s (LMem a)) as [c|] eqn:C.
    - apply ok_inj in H as (<- & <-). split; auto. intros c' Hc. destruct (f_deleted (o_fl c)) eqn:D; [discriminate|]. injection Hc as <-. auto.
    - apply ok_inj in H as (<- & <-). split; auto. discriminate.
  Qed.
  Section WITH.
    Variable er : loc -> M unit.
    Hypothesis RP_er : forall l s, RP (er l) s.
    Lemma RP_erase_mem_with a s : RP (erase_mem_with bk er a) s.
    Proof.
      unfold erase_mem_with. apply RP_bind; [apply R_refl|]. intros s1 s2 E. injection E as <- <-.
      destruct (cell s (LMem a)) eqn:C; auto. destruct (MEM_STATIC <=? a); [|apply RP_ret].
      apply RP_bind; [apply RP_stor_read|]. intros v s1 E. apply stor_read_same in E as (n & ->).
      destruct v; [|apply RP_ret]. apply RP_bind; auto. apply RP_put_stored_none. exact C.
    Qed.
    Lemma RP_unref_with a s : RP (unref_with bk er a) s.
    Proof.
      unfold unref_with. apply RP_bind.
      { unfold RP. destruct (read bk a true s) eqn:E; auto. apply read_mem_only in E as (-> & _). apply R_refl. }
      intros o s1 E. apply read_mem_only in E as (-> & E). destruct o as [c|]; [|apply RP_ret]. destruct (E c eq_refl) as (C & D).
      destruct (f_stored (o_fl c)); [apply RP_ret|]. destruct (o_rc c =? 0); [apply RP_throw|].
      apply RP_bind. { apply R_put_flags with (p := c); auto. }
      intros u s1 E1. destruct (_ =? _); [apply RP_erase_mem_with|apply RP_ret].
    Qed.
    Lemma RP_erase_keys_with a ks : forall s, RP (erase_keys_with er a ks) s.
    Proof.
      induction ks as [|k ks IH]; intros s; cbn [erase_keys_with]; [apply RP_ret|]. apply RP_bind; auto. intros. apply RP_bind; [apply RP_check_gas|]. auto.
    Qed.
    Lemma RP_clear_with o s : RP (clear_with bk er o) s.
    Proof.
      unfold clear_with, erase_entries_with. destruct (o_val o); try apply RP_ret; try apply RP_unref_with;
        (destruct (f_stored _); [apply RP_throw|]; apply RP_bind; [apply R_refl|]; intros; apply RP_erase_keys_with).
    Qed.
  End WITH.
  Lemma RP_erase_loc n : forall l s, RP (erase_loc bk n l) s.
  Proof.
    induction n as [|n IH]; intros l s; cbn [erase_loc]; (apply RP_bind; [apply R_refl|]; intros s1 s2 E; injection E as <- <-);
      (destruct (cell s l) as [o|] eqn:C; [|apply RP_ret]); (destruct (f_const _); [apply RP_throw|]);
      (destruct (f_deleted _) eqn:D; [apply RP_ret|]); (destruct (negb _); [apply RP_throw|]); [apply RP_throw|].
    assert (l = l0 -> ~ gone s) as NG. { intros -> (p & P & _ & D' & _). congruence. }
    unfold RP, bind, add_gas, modify, check_gas. cbn [s_limit s_gas set_gas].
    destruct (_ <? _); [exact Logic.I|]. set (t := set_gas _ s).
    pose proof (RP_clear_with (erase_loc bk n) IH o t) as X. unfold RP in X.
    destruct (clear_with bk (erase_loc bk n) o t) as [u t1|t1|t1|] eqn:CL; auto.
    unfold get, put_new, ret.
    set (f := if f_stored _ then _ else _).
    assert (R s t1) as X1. { eapply R_trans; [|exact X]. apply R_same; reflexivity. }
    destruct X1 as [X1 X2 X3 X4].
    set (o' := mk_obj _ 0 f VNil). set (t2 := set_next_id _ t1).
    assert (R t1 (put_cell l o' t2)) as Y.
    { eapply R_trans; [apply R_next_id|]. apply R_put.
      - intros E (p & P & F). unfold o'. cbn [o_fl]. unfold f. rewrite E. change (cell t2 l0) with (cell t1 l0) in P.
        assert (cell t1 l0 = Some p) as P'. { destruct l0; exact P. } rewrite P', F. destruct p as [? ? []]; exact F.
      - intros E (p & P & F). assert (cell t1 l0 = Some p) as P'. { destruct l0; exact P. }
        unfold o'. cbn [o_fl o_rc o_val]. unfold f. rewrite E, P'. destruct F as (F & _). rewrite F. destruct p as [? ? []]; auto. }
    destruct Y as [Y1 Y2 Y3 Y4]. split; auto.
    - congruence.
  Qed.
  Lemma RP_er l s : RP (er bk l) s. Proof. apply RP_erase_loc. Qed.
  (** erasing an entry that was loaded from storage leaves it marked *)
  Lemma er_gone s s' : stored s -> (forall o, cell s l0 = Some o -> f_deleted (o_fl o) = false) -> er bk l0 s = Ok tt s' -> gone s'.
  Proof.
    intros ST ND. unfold er. destruct MAX_ERASE_RECURSION as [|n]; cbn [erase_loc]; intros H;
      apply bind_ok in H as (s1 & s2 & E1 & H); injection E1 as <- <-; destruct ST as (o & C & F); rewrite C in H;
      (destruct (f_const _); [discriminate|]); rewrite (ND o C) in H; (destruct (negb _); [discriminate|]); [discriminate|].
    apply bind_ok in H as (u1 & t1 & E1 & H). unfold add_gas, modify in E1. apply ok_inj in E1 as (_ & <-).
    apply bind_ok in H as (u2 & t2 & E2 & H). unfold check_gas in E2. destruct (_ <? _); [discriminate|]. apply ok_inj in E2 as (_ & <-).
    apply bind_ok in H as (u3 & t3 & E3 & H).
    pose proof (RP_clear_with (erase_loc bk n) (RP_erase_loc n) o (set_gas (s_gas s + WRITE_COST) s)) as X. unfold RP in X. rewrite E3 in X.
    destruct X as [X _ _ _]. destruct X as (p & P & FP). { exists o. split; auto. }
    apply bind_ok in H as (t4 & t5 & E4 & H). injection E4 as <- <-. rewrite P, FP in H.
    apply bind_ok in H as (u4 & t6 & E5 & H). unfold put_new in E5. apply ok_inj in E5 as (_ & <-). apply ok_inj in H as (_ & <-).
    eexists. rewrite cell_put_same. split; [reflexivity|]. cbn [o_fl o_rc o_val]. destruct p as [? ? []]; auto.
  Qed.
  Lemma RP_clear_addrs l : (forall a, l0 <> LMem a) -> forall s, RP (clear_addrs bk l) s.
  Proof.
    intros NM. induction l as [|a l IH]; intros s; cbn [clear_addrs]; [apply RP_ret|].
    apply RP_bind; [apply R_refl|]. intros s1 s2 E. injection E as <- <-. apply RP_bind; auto.
    destruct (cell s (LMem a)); [|apply RP_ret]. apply RP_bind; [apply RP_clear_with; apply RP_er|]. intros u s1 E.
    apply RP_bind; [|intros; apply RP_check_gas]. unfold RP, modify.
    assert (C : forall t, cell (set_mem t s1) l0 = cell s1 l0). { intros t. destruct l0; auto. exfalso. eapply NM; eauto. }
    split; unfold stored, gone; try rewrite C; auto.
  Qed.
  Lemma RP_clear_stack n : (forall a, l0 <> LMem a) -> forall s, RP (clear_stack bk n) s.
  Proof.
    intros NM s. unfold clear_stack. apply RP_bind; [apply R_refl|]. intros s1 s2 E. injection E as <- <-.
    destruct (_ <=? _); [apply RP_clear_addrs; auto|]. destruct (in_range _ _ _); [apply RP_ret|].
    apply RP_bind; [apply RP_clear_addrs; auto|]. intros. exact Logic.I.
  Qed.
End ERASE.

Section COMMIT.
  Variable bk : backend.
  Lemma stor_write_ok a o s u s' : stor_write a o s = Ok u s' ->
    s_ent s' = s_ent s /\ s_contract s' = s_contract s /\ r_ent (s_ram s') = r_ent (s_ram s).
  Proof.
    unfold stor_write. intros H. apply bind_ok in H as (s1 & s2 & E1 & H). injection E1 as <- <-.
    destruct (s_ro s); [discriminate|]. destruct (negb _); [discriminate|]. destruct (_ && _); [discriminate|].
    apply bind_ok in H as (u1 & t1 & E1 & H). unfold add_gas, modify in E1. apply ok_inj in E1 as (_ & <-).
    apply bind_ok in H as (u2 & t2 & E2 & H). unfold check_gas in E2. destruct (_ <? _); [discriminate|]. apply ok_inj in E2 as (_ & <-).
    apply bind_ok in H as (s1 & s2 & E1 & H). injection E1 as <- <-. unfold ram_write in H.
    cbn [s_ram s_contract set_gas] in H.
    destruct (ram_read _ _ _) as [old|].
    - destruct (f_key (sv_fl old)); [discriminate|]. apply ok_inj in H as (_ & <-). auto.
    - apply ok_inj in H as (_ & <-). auto.
  Qed.
  Lemma commit_mem_ok l : forall s u s', commit_mem l s = Ok u s' ->
    s_ent s' = s_ent s /\ s_contract s' = s_contract s /\ r_ent (s_ram s') = r_ent (s_ram s).
  Proof.
    induction l as [|(a, o) l IH]; intros s u s' H; cbn [commit_mem] in H; [apply ok_inj in H as (_ & <-); auto|].
    apply bind_ok in H as (u1 & s1 & E & H). apply IH in H. destruct H as (-> & -> & ->).
    destruct (f_dirty (o_fl o)).
    - apply bind_ok in E as (u2 & s2 & E & E2). apply stor_write_ok in E. unfold put, modify in E2. apply ok_inj in E2 as (_ & <-). auto.
    - apply ok_inj in E as (_ & <-). auto.
  Qed.
  (** after the loop each dirty element of the list, if there is one per key, is in storage *)
  Lemma commit_ent_ok l : forall s u s', commit_ent l s = Ok u s' -> NoDup (map fst l) ->
    s_contract s' = s_contract s /\
    forall a k, ram_read_entry (s_ram s') (s_contract s) a k =
                match find (fun e => (fst (fst e) =? a) && (snd (fst e) =? k) && f_dirty (o_fl (snd e))) l with
                | Some e => Some (to_svar (snd e))
                | None => ram_read_entry (s_ram s) (s_contract s) a k
                end.
  Proof.
    induction l as [|((a, k), o) l IH]; intros s u s' H ND; cbn [commit_ent] in H; [apply ok_inj in H as (_ & <-); auto|].
    apply bind_ok in H as (u1 & s1 & E & H). simpl in ND. inversion ND as [|? ? NI ND']; subst.
    specialize (IH _ _ _ H ND') as (IC & IH). cbn [find fst snd].
    destruct (f_dirty (o_fl o)) eqn:D.
    - apply bind_ok in E as (u2 & s2 & E & E2). unfold put, modify in E2. apply ok_inj in E2 as (_ & <-).
      unfold stor_write_entry in E. apply bind_ok in E as (x1 & x2 & E1 & E). injection E1 as <- <-.
      destruct (s_ro s); [discriminate|]. destruct (negb _); [discriminate|]. destruct (negb _); [discriminate|].
      apply bind_ok in E as (u3 & t1 & E1 & E). unfold add_gas, modify in E1. apply ok_inj in E1 as (_ & <-).
      apply bind_ok in E as (u4 & t2 & E2 & E). unfold check_gas in E2. destruct (_ <? _); [discriminate|]. apply ok_inj in E2 as (_ & <-).
      unfold modify in E. apply ok_inj in E as (_ & <-).
      split; [rewrite IC; reflexivity|]. intros a' k'.
      match type of IH with forall a k, ram_read_entry _ ?X _ _ = _ => change X with (s_contract s) in IH end.
      rewrite IH. rewrite andb_true_r.
      destruct (N.eqb_spec a a') as [->|NA]; [destruct (N.eqb_spec k k') as [->|NK]|].
      + cbn [andb]. destruct (find _ l) as [((a2, k2), o2)|] eqn:F.
        * apply find_some in F as (F & Fb). cbn [fst snd] in Fb. apply andb_prop in Fb as (Fb & _). apply andb_prop in Fb as (F1 & F2).
          apply N.eqb_eq in F1, F2. subst a2 k2. exfalso. apply NI. apply (in_map fst) in F. exact F.
        * unfold ram_read_entry. cbn. unfold ent_eqb at 1. cbn [fst snd]. rewrite addr_eqb_refl, !N.eqb_refl. reflexivity.
      + rewrite andb_false_r. destruct (find _ l); auto. unfold ram_read_entry. cbn. unfold ent_eqb at 1. cbn [fst snd].
        destruct (N.eqb_spec k' k); [congruence|]. rewrite andb_false_r. reflexivity.
      + cbn [andb]. destruct (find _ l); auto. unfold ram_read_entry. cbn. unfold ent_eqb at 1. cbn [fst snd].
        destruct (N.eqb_spec a' a); [congruence|]. rewrite andb_false_r. cbn [andb]. reflexivity.
    - apply ok_inj in E as (_ & <-). split; auto. intros a' k'. rewrite andb_false_r. apply IH.
  Qed.
  Lemma ssorted_nodup (l : list (N * N)) : Sorted.StronglySorted (klt entcmp) l -> NoDup l.
  Proof.
    induction 1 as [|x l S IH F]; constructor; auto. intros Hin. rewrite Forall_forall in F. specialize (F x Hin).
    unfold klt in F. rewrite (proj2 (tc_eq entcmp_total x x) eq_refl) in F. discriminate.
  Qed.
  Lemma commit_gone a k s s' : MEM_STATIC <= a -> gone (LEnt a k) s -> asorted entcmp (s_ent s) -> commit bk s = Ok tt s' ->
    exists v, cache_entry bk (s_ram s') (s_contract s) a k = Some v /\ f_deleted (sv_fl v) = true.
  Proof.
    intros L G S H. unfold commit in H. apply bind_ok in H as (u & s1 & E & H).
    pose proof (RP_clear_stack bk (LEnt a k) 0 ltac:(discriminate) s) as X. unfold RP in X. rewrite E in X.
    destruct X as [_ X2 X3 X4]. specialize (X2 G). specialize (X3 S). clear E G S.
    assert (CC : s_contract s1 = s_contract s) by (unfold rest in X4; congruence).
    apply bind_ok in H as (x1 & x2 & E1 & H). injection E1 as <- <-.
    apply bind_ok in H as (u1 & s2 & E1 & H). apply commit_mem_ok in E1 as (E1 & E2 & E3).
    apply bind_ok in H as (u2 & s3 & E4 & H). unfold check_gas in H. destruct (_ <? _); [discriminate|]. apply ok_inj in H as (_ & <-).
    apply commit_ent_ok in E4.
    2:{ apply ssorted_nodup. apply (asorted_filter (cmp := entcmp)); auto. }
    destruct E4 as (E4 & E5). specialize (E5 a k). rewrite <- CC, <- E2. unfold cache_entry. rewrite E5.
    destruct X2 as (o & C & F1 & F2 & F3 & _). unfold cell in C. apply aget_In in C; auto; [|exact entcmp_total].
    destruct (find _ _) as [((a2, k2), o2)|] eqn:F.
    - apply find_some in F as (F & Fb). cbn [fst snd] in Fb. apply andb_prop in Fb as (Fb & _). apply andb_prop in Fb as (Fa & Fk).
      apply N.eqb_eq in Fa, Fk. subst a2 k2. apply filter_In in F as (F & _).
      assert (o2 = o) by (eapply (asorted_fun (cmp := entcmp)); [exact entcmp_total|exact X3|exact F|exact C]). subst o2.
      eexists. split; [reflexivity|]. exact F2.
    - exfalso. eapply find_none in F. 2:{ apply filter_In. split; [exact C|]. cbn [fst snd]. apply N.leb_le; auto. }
      cbn [fst snd] in F. rewrite !N.eqb_refl, F3 in F. discriminate.
  Qed.
End COMMIT.
