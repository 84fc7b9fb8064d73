(** Invariants of whole instructions and programs: the world changes only as far as it may, gas never decreases *)
Require Import List Arith NArith ZArith Bool Lia.
From Verif Require Import BytesLib OrdLib VarModel InstrModel EngineModel EngineSpec EngineProofs.
Import ListNotations.
Open Scope N_scope.

Lemma addr_eqb_spec a b : Bool.reflect (a = b) (addr_eqb a b).
Proof.
  unfold addr_eqb. destruct (bytescmp a b) eqn:E.
  - constructor. apply (tc_eq bytescmp_total). auto.
  - constructor. intros ->. assert (bytescmp b b = Eq) by (apply (tc_eq bytescmp_total); auto). congruence.
  - constructor. intros ->. assert (bytescmp b b = Eq) by (apply (tc_eq bytescmp_total); auto). congruence.
Qed.
Lemma addr_eqb_refl a : addr_eqb a a = true.
Proof. destruct (addr_eqb_spec a a); congruence. Qed.
Lemma bal_eqb_spec x y : Bool.reflect (x = y) (bal_eqb x y).
Proof.
  destruct x as (a, b), y as (c, d). unfold bal_eqb. simpl.
  destruct (addr_eqb_spec a c), (addr_eqb_spec b d); simpl; constructor; congruence.
Qed.
Lemma lfind_cons {K V} (eqb : K -> K -> bool) k k' (v : V) l :
  lfind eqb k ((k', v) :: l) = if eqb k k' then Some v else lfind eqb k l.
Proof. reflexivity. Qed.

Lemma aget_filter_ne {V} a (l : list (N * V)) b :
  aget N.compare b (filter (fun e => negb (fst e =? a)) l) = if b =? a then None else aget N.compare b l.
Proof.
  induction l as [|(k, v) l IH]; simpl; [destruct (b =? a); auto|].
  destruct (N.eqb_spec k a) as [->|NE]; simpl.
  - rewrite IH. destruct (N.eqb_spec b a) as [EB|NB]; auto. destruct (b ?= a) eqn:E; auto. apply N.compare_eq in E. congruence.
  - rewrite IH. destruct (b ?= k) eqn:E; auto. apply N.compare_eq in E. destruct (N.eqb_spec b a); congruence.
Qed.
Lemma out_sum_app cur a b : out_sum cur (a ++ b) = out_sum cur a + out_sum cur b.
Proof. induction a; simpl; auto. rewrite IHa. lia. Qed.

Section WORLD.
  Variable bk : backend.
  Variable locked : addr -> bool.
  Record RW (w w' : world) : Prop := mk_RW {
    rw_ok : ram_ok (w_ram w) -> ram_ok (w_ram w');
    rw_storage : forall c, locked c = false -> same_storage bk c w w';
    rw_bal : forall c cur, balance_of bk w' c cur + spent w' c cur = balance_of bk w c cur + spent w c cur;
    rw_spent : forall c cur, spent w c cur <= spent w' c cur;
    rw_unspent : forall c cur, locked c = false -> spent w' c cur = spent w c cur;
    rw_outs : exists o, w_outs w' = w_outs w ++ o;
    rw_cons : forall cur, locked cur = false ->
      out_sum cur (w_outs w') + total_spent w cur = out_sum cur (w_outs w) + total_spent w' cur;
    rw_cons_ge : forall cur, out_sum cur (w_outs w) + total_spent w' cur <= out_sum cur (w_outs w') + total_spent w cur }.
  Lemma same_storage_refl c w : same_storage bk c w w.
  Proof. split; [|split]; auto. Qed.
  Lemma RW_refl w : RW w w.
  Proof.
    split; auto using same_storage_refl; try lia. exists []. rewrite app_nil_r. auto.
  Qed.
  Lemma RW_trans w1 w2 w3 : RW w1 w2 -> RW w2 w3 -> RW w1 w3.
  Proof.
    intros [A1 A2 A3 A4 A5 A6 A7 A8] [B1 B2 B3 B4 B5 B6 B7 B8]. split.
    - auto.
    - intros c L. destruct (A2 c L) as (P1 & P2 & P3), (B2 c L) as (Q1 & Q2 & Q3).
      split; [|split]; intros; congruence.
    - intros c cur. specialize (A3 c cur). specialize (B3 c cur). lia.
    - intros c cur. specialize (A4 c cur). specialize (B4 c cur). lia.
    - intros c cur L. rewrite B5, A5; auto.
    - destruct A6 as (o & E), B6 as (o' & E'). exists (o ++ o'). rewrite E', E, app_assoc. auto.
    - intros cur L. specialize (A7 cur L). specialize (B7 cur L). lia.
    - intros cur. specialize (A8 cur). specialize (B8 cur). lia.
  Qed.
  (** writing to the memory of a locked contract *)
  Lemma mem_eqb_ne c a c' a' : c <> c' -> mem_eqb (c, a) (c', a') = false.
  Proof. intros. unfold mem_eqb. simpl. destruct (addr_eqb_spec c c'); auto; congruence. Qed.
  Lemma mem_eqb_true x y : mem_eqb x y = true -> x = y.
  Proof.
    destruct x as (c, a), y as (d, b). unfold mem_eqb. simpl. destruct (addr_eqb_spec c d); simpl; [|discriminate].
    intros E. apply N.eqb_eq in E. congruence.
  Qed.
  Lemma ent_eqb_true x y : ent_eqb x y = true -> x = y.
  Proof.
    destruct x as (c, (a, k)), y as (d, (b, j)). unfold ent_eqb. simpl. destruct (addr_eqb_spec c d); simpl; [|discriminate].
    intros E. apply andb_prop in E. destruct E as (E1 & E2). apply N.eqb_eq in E1, E2. congruence.
  Qed.
  Lemma RW_ram w r : (ram_ok (w_ram w) -> ram_ok r) ->
    (forall c, locked c = false -> same_storage bk c w (set_w_ram r w)) ->
    (forall c cur, balance_of bk (set_w_ram r w) c cur = balance_of bk w c cur) -> RW w (set_w_ram r w).
  Proof.
    intros H1 H2 H3. split; auto.
    - intros. rewrite H3. reflexivity.
    - intros. change (spent (set_w_ram r w) c cur) with (spent w c cur). lia.
    - exists []. rewrite app_nil_r. auto.
    - intros. change (total_spent (set_w_ram r w) cur) with (total_spent w cur). simpl. lia.
  Qed.
  Lemma RW_write w c a v r : locked c = true -> hdr_ok (LMem a) (sv_val v) ->
    ram_write (w_ram w) c a v = Some r -> RW w (set_w_ram r w).
  Proof.
    intros L HV E.
    assert (r = mk_ram (((c, a), v) :: r_mem (w_ram w)) (r_ent (w_ram w))
              (if f_key (sv_fl v) then ((c, sv_val v), a) :: r_keys (w_ram w) else r_keys (w_ram w)) (r_bal (w_ram w))) as ->.
    { unfold ram_write in E. destruct (ram_read (w_ram w) c a) as [old|]; [destruct (f_key (sv_fl old)); [discriminate|]|]; congruence. }
    clear E. apply RW_ram; [| |reflexivity].
    - intros (K1 & K2). split; [|exact K2]. intros d b u. unfold ram_read. simpl r_mem. rewrite lfind_cons.
      destruct (mem_eqb (d, b) (c, a)) eqn:M; [|apply K1]. apply mem_eqb_true in M. intros [= <-]. injection M as -> ->. auto.
    - intros d Ld. assert (d <> c) by congruence. split; [|split]; auto.
      + intros b. unfold cache_read, ram_read. simpl. rewrite mem_eqb_ne; auto.
      + intros u. unfold cache_lookup, ram_lookup. simpl. destruct (f_key (sv_fl v)); auto. rewrite lfind_cons.
        unfold key_eqb at 1 3. simpl. destruct (addr_eqb_spec d c); [congruence|]. auto.
  Qed.
  Lemma RW_write_entry w c a k v : locked c = true -> hdr_ok (LEnt a k) (sv_val v) ->
    RW w (set_w_ram (ram_write_entry (w_ram w) c a k v) w).
  Proof.
    intros L HV. apply RW_ram; [| |reflexivity].
    - intros (K1 & K2). split; [exact K1|]. intros d b j u. unfold ram_read_entry. simpl r_ent. rewrite lfind_cons.
      destruct (ent_eqb (d, (b, j)) (c, (a, k))) eqn:M; [|apply K2]. apply ent_eqb_true in M. intros [= <-]. injection M as -> -> ->. auto.
    - intros d Ld. assert (d <> c) by congruence. split; [|split]; auto.
      intros b j. unfold cache_entry, ram_read_entry. simpl. unfold ent_eqb at 1. simpl. destruct (addr_eqb_spec d c); [congruence|]. auto.
  Qed.
  (** reading a balance puts it into the cache *)
  Lemma RW_balance w c cur n r : cache_balance bk (w_ram w) c cur = (n, r) -> RW w (set_w_ram r w).
  Proof.
    unfold cache_balance. destruct (ram_balance (w_ram w) c cur) eqn:E.
    - intros [= <- <-]. destruct w. apply RW_refl.
    - destruct (bk_balance bk c cur) as [m|] eqn:E2.
      + intros [= <- <-]. apply RW_ram; auto.
        * intros. split; [|split]; reflexivity.
        * intros d u. unfold balance_of, ram_balance. simpl. fold (ram_balance (w_ram w) d u).
          destruct (bal_eqb_spec (d, u) (c, cur)) as [[= -> ->]|]; auto. rewrite E, E2. auto.
      + intros [= <- <-]. destruct w. apply RW_refl.
  Qed.
  Lemma cache_balance_val w c cur n r : cache_balance bk (w_ram w) c cur = (n, r) ->
    balance_of bk w c cur = match n with Some n => n | None => 0 end.
  Proof.
    unfold cache_balance, balance_of. destruct (ram_balance (w_ram w) c cur); [intros [= <- _]; auto|].
    destruct (bk_balance bk c cur); intros [= <- _]; auto.
  Qed.
  (** one output is taken from the balance *)
  Lemma RW_spend w c o n r :
    locked c = true -> cache_balance bk (w_ram w) c (to_currency o) = (Some n, r) -> to_amount o <= n ->
    RW w (mk_world (ram_set_balance r c (to_currency o) (n - to_amount o)) (w_outs w ++ [o])
                   (((c, to_currency o), to_amount o) :: w_spend w)).
  Proof.
    intros L E LE. pose proof (cache_balance_val _ _ _ _ _ E) as V. pose proof (RW_balance _ _ _ _ _ E) as B.
    eapply RW_trans; [exact B|].
    assert (forall d u, spent (mk_world (ram_set_balance r c (to_currency o) (n - to_amount o)) (w_outs w ++ [o])
                   (((c, to_currency o), to_amount o) :: w_spend w)) d u
             = (if bal_eqb (c, to_currency o) (d, u) then to_amount o else 0) + spent (set_w_ram r w) d u) as SP by reflexivity.
    assert (forall u, total_spent (mk_world (ram_set_balance r c (to_currency o) (n - to_amount o)) (w_outs w ++ [o])
                   (((c, to_currency o), to_amount o) :: w_spend w)) u
             = (if addr_eqb (to_currency o) u then to_amount o else 0) + total_spent (set_w_ram r w) u) as TP by reflexivity.
    assert (forall u, out_sum u (w_outs w ++ [o]) = out_sum u (w_outs w) + (if addr_eqb (to_currency o) u then to_amount o else 0)) as OS.
    { intros u. rewrite out_sum_app. simpl. lia. }
    split.
    - auto.
    - intros d Ld. split; [|split]; reflexivity.
    - intros d u. rewrite SP.
      assert (balance_of bk (mk_world (ram_set_balance r c (to_currency o) (n - to_amount o)) (w_outs w ++ [o])
                   (((c, to_currency o), to_amount o) :: w_spend w)) d u =
              if bal_eqb (d, u) (c, to_currency o) then n - to_amount o else balance_of bk (set_w_ram r w) d u) as ->.
      { unfold balance_of, ram_balance. simpl. destruct (bal_eqb (d, u) (c, to_currency o)); auto. }
      destruct (bal_eqb_spec (d, u) (c, to_currency o)) as [[= -> ->]|NE].
      + destruct (bal_eqb_spec (c, to_currency o) (c, to_currency o)); [|congruence].
        pose proof (rw_bal _ _ B c (to_currency o)) as X. rewrite V in X. change (spent (set_w_ram r w) c (to_currency o)) with (spent w c (to_currency o)) in *. lia.
      + destruct (bal_eqb_spec (c, to_currency o) (d, u)); [congruence|]. lia.
    - intros d u. rewrite SP. lia.
    - intros d u Ld. rewrite SP. destruct (bal_eqb_spec (c, to_currency o) (d, u)) as [EQ|]; [injection EQ as EQ1 EQ2; congruence|]. lia.
    - exists [o]. reflexivity.
    - intros u Lu. simpl w_outs. rewrite OS, TP. lia.
    - intros u. simpl w_outs. rewrite OS, TP. lia.
  Qed.
  (** new coins of a locked contract *)
  Lemma RW_mint w c l : locked c = true -> Forall (fun o => to_currency o = c) l ->
    RW w (mk_world (w_ram w) (w_outs w ++ l) (w_spend w)).
  Proof.
    intros L F. split; auto.
    - intros. split; [|split]; reflexivity.
    - intros. unfold spent. simpl. lia.
    - exists l. auto.
    - intros u Lu. simpl w_outs. rewrite out_sum_app. assert (out_sum u l = 0) as ->.
      { induction F as [|o l Ho F IH]; simpl; auto. rewrite IH. destruct (addr_eqb_spec (to_currency o) u); [congruence|lia]. }
      unfold total_spent. simpl. lia.
    - intros u. simpl w_outs. rewrite out_sum_app. unfold total_spent. simpl. lia.
  Qed.
End WORLD.

(** what stays the same while a program runs *)
Definition fixed (s : st) := (s_limit s, s_contract s, s_version s, s_ro s, s_code s, s_init s).
Definition mints_ok (s : st) : Prop := Forall (fun o => to_currency o = s_contract s) (s_mints s).
Section UPPER.
  Variable bk : backend.
  Hypothesis bk_ok : backend_ok bk.
  Variable locked : addr -> bool.
  (** the balance the engine knows and what it has sent add up, from the balance at the first use on; [d]: what was sent by the
      contract in other calls until then *)
  Definition VB (s s' : st) : Prop := forall cur,
    match lfind addr_eqb cur (s_bal s), lfind addr_eqb cur (s_bal s') with
    | Some b, Some b' => b' + out_sum cur (s_outs s') = b + out_sum cur (s_outs s)
    | Some _, None => False
    | None, None => out_sum cur (s_outs s') = out_sum cur (s_outs s)
    | None, Some b' => exists d, b' + out_sum cur (s_outs s') + d = balance_of bk (s_world s) (s_contract s) cur + out_sum cur (s_outs s)
                                 /\ spent (s_world s) (s_contract s) cur + d <= spent (s_world s') (s_contract s) cur
    end.
  Lemma VB_refl s s' : s_bal s' = s_bal s -> s_outs s' = s_outs s -> VB s s'.
  Proof. intros E1 E2 cur. rewrite E1, E2. destruct (lfind addr_eqb cur (s_bal s)); auto. Qed.
  Lemma VB_trans s1 s2 s3 : s_contract s2 = s_contract s1 -> RW bk locked (s_world s1) (s_world s2) -> RW bk locked (s_world s2) (s_world s3) ->
    VB s1 s2 -> VB s2 s3 -> VB s1 s3.
  Proof.
    intros EC W1 W2 V1 V2 cur. specialize (V1 cur). specialize (V2 cur). rewrite EC in V2.
    pose proof (rw_bal _ _ _ _ W1 (s_contract s1) cur) as B1. pose proof (rw_spent _ _ _ _ W1 (s_contract s1) cur) as S1.
    pose proof (rw_spent _ _ _ _ W2 (s_contract s1) cur) as S2.
    destruct (lfind addr_eqb cur (s_bal s1)) as [b1|]; destruct (lfind addr_eqb cur (s_bal s2)) as [b2|];
      destruct (lfind addr_eqb cur (s_bal s3)) as [b3|]; try contradiction; try lia.
    - destruct V1 as (d & V1 & D). exists d. split; lia.
    - destruct V2 as (d & V2 & D). exists (d + (spent (s_world s2) (s_contract s1) cur - spent (s_world s1) (s_contract s1) cur)). split; lia.
  Qed.
  Record IU (s0 s : st) : Prop := mk_IU {
    iu_fixed : fixed s = fixed s0; iu_gas : s_gas s0 <= s_gas s; iu_cell : Rcell None s0 s;
    iu_world : RW bk locked (s_world s0) (s_world s); iu_mints : mints_ok s; iu_ok : st_ok s; iu_view : VB s0 s }.
  Record TU (s0 s : st) : Prop := mk_TU {
    tu_limit : s_limit s = s_limit s0; tu_contract : s_contract s = s_contract s0; tu_gas : s_gas s0 <= s_gas s;
    tu_world : RW bk locked (s_world s0) (s_world s) }.
  Lemma IU_TU s0 s : IU s0 s -> TU s0 s.
  Proof. intros [F G C W Mi O V]. unfold fixed in F. split; auto; congruence. Qed.
  Lemma IU_refl s : mints_ok s -> st_ok s -> IU s s.
  Proof. intros. split; auto using Rcell_refl, RW_refl, VB_refl. lia. Qed.
  Lemma IU_trans s0 s1 s2 : IU s0 s1 -> IU s1 s2 -> IU s0 s2.
  Proof.
    intros [F] [F2]. split; eauto using Rcell_trans, RW_trans; [congruence|lia|].
    apply VB_trans with s1; auto. unfold fixed in F. congruence.
  Qed.
  Lemma TU_trans s0 s1 s2 : IU s0 s1 -> TU s1 s2 -> TU s0 s2.
  Proof.
    intros [F] []. unfold fixed in F. split; eauto using RW_trans; try congruence. lia.
  Qed.
  Lemma rest_fixed s s' : rest s' = rest s -> fixed s' = fixed s.
  Proof. unfold rest, fixed. intros. congruence. Qed.
  Lemma Rm_IU s0 s s' : IU s0 s -> Rm None s s' -> st_ok s' -> IU s0 s'.
  Proof.
    intros [F G C W Mi O V] [E1 E2 E3] K. split; eauto using Rcell_trans; [rewrite (rest_fixed _ _ E1); auto|lia| | |].
    - rewrite (rest_world _ _ E1). auto.
    - unfold rest in E1. unfold mints_ok in *. replace (s_contract s') with (s_contract s) by congruence.
      replace (s_mints s') with (s_mints s) by congruence. auto.
    - assert (s_world s' = s_world s) as EW by (apply rest_world; auto). unfold rest in E1. unfold fixed in F.
      apply VB_trans with s; auto; [congruence|rewrite EW; apply RW_refl|apply VB_refl; congruence].
  Qed.
  Lemma RmT_TU s0 s s' : IU s0 s -> RmT s s' -> TU s0 s'.
  Proof.
    intros [F G C W Mi O V] [E1 E2]. unfold fixed in F. pose proof E1 as E3. unfold rest in E3. split.
    - congruence.
    - congruence.
    - lia.
    - rewrite (rest_world _ _ E1). auto.
  Qed.
  Lemma lift A s0 s (m : M A) Q : IU s0 s -> hb (inv None s) (RmT s) s m Q -> hb (IU s0) (TU s0) s m Q.
  Proof.
    intros H K. eapply hb_weaken; [exact K| |].
    - intros a s' (R & O) HQ. split; auto. eapply Rm_IU; eauto.
    - intros s' R. eapply RmT_TU; eauto.
  Qed.
  Lemma lift_any A s0 s (m : M A) Q : IU s0 s -> (inv None s s -> hb (inv None s) (RmT s) s m Q) -> hb (IU s0) (TU s0) s m Q.
  Proof. intros H K. apply lift; auto. apply K. apply inv_refl. destruct H; auto. Qed.
  (** states that differ from one that is reached in nothing that matters here *)
  Lemma IU_ext s0 s s' : IU s0 s -> fixed s' = fixed s -> s_gas s <= s_gas s' -> s_mem s' = s_mem s -> s_ent s' = s_ent s ->
    RW bk locked (s_world s) (s_world s') -> mints_ok s' -> VB s s' -> IU s0 s'.
  Proof.
    intros [F G C W Mi O V] E1 E2 E3 E4 E5 E6 E7. split; auto; try congruence; try lia.
    - eapply Rcell_ext; eauto.
    - eapply RW_trans; eauto.
    - destruct O as (O1 & O2). split.
      + unfold cells_ok. rewrite E3, E4. exact O1.
      + apply (rw_ok _ _ _ _ E5). auto.
    - apply VB_trans with s; auto. unfold fixed in F. congruence.
  Qed.
  Variable s0 : st.
  Notation hu := (hb (IU s0) (TU s0)).
  Lemma hu_bind A B s (m : M A) (k : A -> M B) Q' :
    hu s m any -> (forall a s', IU s0 s' -> hu s' (k a) Q') -> hu s (bind m k) Q'.
  Proof. intros. eapply hb_bind; eauto. Qed.
  Lemma hu_throw A s (Q : A -> st -> Prop) : IU s0 s -> hu s throw Q.
  Proof. intros. apply hb_throw. apply IU_TU. auto. Qed.
  Lemma hu_undefined A s (Q : A -> st -> Prop) : IU s0 s -> hu s undefined Q.
  Proof. intros. apply hb_undefined. apply IU_TU. auto. Qed.
  Lemma hu_ret A s (a : A) : IU s0 s -> hu s (ret a) any.
  Proof. intros. apply hb_ret; auto. exact Logic.I. Qed.
  Lemma hu_modify s f : IU s0 s -> fixed (f s) = fixed s -> s_gas s <= s_gas (f s) -> s_mem (f s) = s_mem s -> s_ent (f s) = s_ent s ->
    RW bk locked (s_world s) (s_world (f s)) -> mints_ok (f s) -> VB s (f s) -> hu s (modify f) any.
  Proof. intros. apply hb_modify; [|exact Logic.I]. eapply IU_ext; eauto. Qed.
  Lemma hu_set_frames s f : IU s0 s -> hu s (modify (fun s => set_frames (f s) s)) any.
  Proof. intros H. apply hu_modify; simpl; auto using RW_refl, VB_refl; try lia. destruct H; auto. Qed.
  Lemma hu_set_error s n : IU s0 s -> hu s (modify (set_error n)) any.
  Proof. intros H. apply hu_modify; simpl; auto using RW_refl, VB_refl; try lia. destruct H; auto. Qed.
  Lemma hu_add_mint s a v m : IU s0 s ->
    hu s (modify (fun s => set_mints (s_mints s ++ [mk_txout a (s_contract s) v m]) s)) any.
  Proof.
    intros H. apply hu_modify; simpl; auto using RW_refl, VB_refl; try lia. destruct H as [F G C W Mi O V]. unfold mints_ok in *. simpl.
    apply Forall_app. split; auto.
  Qed.
  Hint Resolve hu_set_frames hu_set_error hu_add_mint : hu.
  Ltac hu_step :=
    match goal with
    | |- hb _ _ _ (bind get _) _ => apply hb_get
    | |- hb _ _ _ (bind _ _) _ => apply hu_bind; [|intros]
    | |- hb _ _ _ (ret _) _ => apply hu_ret; assumption
    | |- hb _ _ _ throw _ => apply hu_throw; assumption
    | |- hb _ _ _ undefined _ => apply hu_undefined; assumption
    | |- hb _ _ _ (let '(_, _) := ?b in _) _ => destruct b
    | |- hb _ _ _ (if ?b then _ else _) _ => destruct b
    | |- hb _ _ _ (match ?b with _ => _ end) _ => destruct b
    | |- hb _ _ _ _ _ => solve [auto with hu]
    | |- hb _ _ _ _ _ => apply lift_any; [assumption|intros; solve [auto with hm]]
    end.
  Ltac hu_auto := repeat (cbv beta zeta; hu_step).
  Lemma hu_get_frame s : IU s0 s -> hu s get_frame any.
  Proof. intros. unfold get_frame. hu_auto. Qed.
  Lemma hu_jump s ip : IU s0 s -> hu s (jump ip) any.
  Proof.
    intros. unfold jump. apply hb_get. destruct (s_frames s) as [|(? & ?) ?]; [apply hu_throw; auto|].
    apply hu_set_frames with (f := fun _ => _); auto.
  Qed.
  Hint Resolve hu_get_frame hu_jump : hu.
  Lemma hu_call s ip sp : IU s0 s -> hu s (call ip sp) any.
  Proof. intros. unfold call. hu_auto. Qed.
  Lemma hu_clear_addrs l : Forall (fun a => MEM_STACK <= a) l -> forall s, IU s0 s -> hu s (clear_addrs bk l) any.
  Proof.
    induction 1 as [|a l L _ IH]; intros s H; cbn [clear_addrs]; [apply hu_ret; auto|]. apply hb_get.
    apply hu_bind; [|intros; apply IH; auto].
    destruct (cell s (LMem a)) as [o|] eqn:E; [|apply hu_ret; auto].
    apply hu_bind.
    { apply lift_any; auto. intros HI. apply hm_clear with (l := LMem a); auto.
      - destruct H as [_ _ _ _ _ (O & _)]. exact (cells_ok_cell _ _ _ O E).
      - intros ? ? [= <-]. apply efree_high; auto. }
    intros ? s1 H1. apply hu_bind; [|intros; apply lift_any; auto with hm].
    apply hb_modify; [|exact Logic.I]. destruct H1 as [F G C W Mi O]. split; auto.
    - intros b o1 Lb C1 F1. destruct (C b o1 Lb C1 F1) as (o2 & C2 & F2 & D2 & V2 & E2).
      exists o2. split; [|auto]. simpl. rewrite aget_filter_ne. destruct (N.eqb_spec b a); [lia|auto].
    - destruct O as ((O1 & O3) & O2). split; auto. split; auto. simpl. intros b o1 Hin. apply filter_In in Hin. apply O1. apply Hin.
  Qed.
  Lemma in_range_high lo hi s : MEM_STACK <= lo -> Forall (fun a => MEM_STACK <= a) (in_range lo hi s).
  Proof.
    intros L. apply Forall_forall. intros a. unfold in_range. rewrite in_map_iff. intros (e & <- & He).
    apply filter_In in He. destruct He as (_ & He). apply andb_prop in He. destruct He as (He & _). apply N.leb_le in He. lia.
  Qed.
  Lemma above_high lo s : MEM_STACK <= lo -> Forall (fun a => MEM_STACK <= a) (above lo s).
  Proof.
    intros L. apply Forall_forall. intros a. unfold above. rewrite in_map_iff. intros (e & <- & He).
    apply filter_In in He. destruct He as (_ & He). apply N.leb_le in He. lia.
  Qed.
  Lemma hu_clear_stack s n : IU s0 s -> hu s (clear_stack bk n) any.
  Proof.
    intros H. unfold clear_stack. apply hb_get. cbv zeta. destruct (MEM_STACK + n <=? MEM_STATIC).
    - apply hu_clear_addrs; auto. apply in_range_high. lia.
    - destruct (in_range MEM_STATIC (MEM_STACK + n) s); [apply hu_ret; auto|].
      apply hu_bind; [apply hu_clear_addrs; auto; apply above_high; lia|]. intros. apply hu_undefined; auto.
  Qed.
  Hint Resolve hu_call hu_clear_stack : hu.
  Lemma hu_do_ret s : IU s0 s -> hu s (do_ret bk) any.
  Proof. intros. unfold do_ret. hu_auto. Qed.
  Lemma hu_deref s a : IU s0 s -> hu s (deref bk a) any.
  Proof. intros. unfold deref. hu_auto. Qed.
  Hint Resolve hu_do_ret hu_deref : hu.
  Lemma hu_deref_addr s a b : IU s0 s -> hu s (deref_addr bk a b) any.
  Proof. intros. unfold deref_addr. hu_auto. Qed.
  Hint Resolve hu_deref_addr : hu.
  Lemma hu_deref_value s a b : IU s0 s -> hu s (deref_value bk a b) any.
  Proof. intros. unfold deref_value. hu_auto. Qed.
  Lemma hu_stor_balance s cur : IU s0 s -> hu s (stor_balance bk cur) (fun n s' => s_mem s' = s_mem s /\ s_bal s' = s_bal s /\
    match n with Some n => n | None => 0 end = balance_of bk (s_world s') (s_contract s') cur).
  Proof.
    intros H. unfold stor_balance.
    eapply hb_bind with (Q := fun _ s' => s_mem s' = s_mem s /\ s_bal s' = s_bal s).
    { apply lift_any; auto. intros HI. apply hm_add_gas; auto. }
    intros _ s1 H1 E1. eapply hb_bind with (Q := fun _ s' => s_mem s' = s_mem s /\ s_bal s' = s_bal s).
    { apply lift_any; auto. intros HI. apply hm_check_gas; auto. }
    intros _ s2 H2 E2. apply hb_get. destruct (cache_balance bk (s_ram s2) (s_contract s2) cur) as (n & r) eqn:E.
    eapply hb_bind with (Q := fun _ s' => s' = set_ram r s2).
    - apply hb_modify; auto. apply IU_ext with s2; simpl; auto; try lia.
      + eapply RW_balance; eauto.
      + destruct H2; auto.
      + apply VB_refl; auto.
    - intros _ s3 H3 ->. apply hb_ret; auto. destruct E2 as (E2 & E3). split; [|split]; auto.
      unfold cache_balance in E. unfold balance_of. simpl.
      destruct (ram_balance (s_ram s2) (s_contract s2) cur) as [m|] eqn:RB.
      + injection E as <- <-. now rewrite RB.
      + destruct (bk_balance bk (s_contract s2) cur) as [m|] eqn:BB; injection E as <- <-.
        * unfold ram_balance, ram_set_balance. cbn [r_bal]. rewrite lfind_cons. destruct (bal_eqb_spec (s_contract s2, cur) (s_contract s2, cur)); congruence.
        * now rewrite ?RB, ?BB.
  Qed.
  Lemma read_binary_cell s c b s1 : read_binary bk c s = Ok b s1 ->
    exists o, cell s1 (LMem c) = Some o /\ f_deleted (o_fl o) = false /\ o_val o = VBinary b.
  Proof.
    unfold read_binary, read_fail, read, bind, get. cbv beta.
    destruct (cell s (LMem c)) as [o|] eqn:C.
    - unfold ret. destruct (f_deleted (o_fl o)) eqn:D; [discriminate|].
      destruct (o_val o) eqn:V; try discriminate. intros H. injection H as <- <-. eauto.
    - destruct (MEM_STATIC <=? c); [|discriminate]. unfold stor_read, bind, get. cbv beta.
      destruct (read_ex (s_ro s) (cache_read bk (s_ram s) (s_contract s) c)) as [v|] eqn:RE.
      + unfold charge_read, add_gas, modify, bind, check_gas, ret. cbv beta.
        match goal with |- context [if ?x then Throw _ else Ok tt ?s] => destruct x; [discriminate|] end.
        unfold put_stored, put_new. cbn -[cell put_cell read_ex].
        match goal with |- context [cell ?s (LMem c)] => destruct (cell s (LMem c)) as [o|] eqn:C2 end; [|discriminate].
        intros H. destruct (o_val o) eqn:V; try discriminate. injection H as <- <-. exists o. split; [exact C2|]. split; auto.
        rewrite cell_put_same in C2. injection C2 as <-. cbn [o_fl].
        unfold read_ex in RE. destruct (cache_read bk (s_ram s) (s_contract s) c) as [u|]; [|discriminate].
        destruct (f_deleted (sv_fl u)) eqn:D; [discriminate|]. injection RE as <-. cbn [sv_fl]. destruct (s_ro s); exact D.
      + unfold charge_read, add_gas, modify, bind, check_gas, ret. cbv beta.
        match goal with |- context [if ?x then Throw _ else Ok tt ?s] => destruct x; discriminate end.
  Qed.
  Definition known (c : N) (p : addr * N) (s : st) : Prop := lfind addr_eqb (fst p) (s_bal s) = Some (snd p) /\
    exists o, cell s (LMem c) = Some o /\ f_deleted (o_fl o) = false /\ o_val o = VBinary (fst p).
  Lemma hb_ok A I T s (m : M A) Q : hb I T s m Q -> hb I T s m (fun a s' => Q a s' /\ m s = Ok a s').
  Proof. unfold hb. destruct (m s); auto. tauto. Qed.
  Lemma hu_get_balance_known s c : IU s0 s -> hu s (get_balance bk c) (known c).
  Proof.
    intros H. unfold get_balance.
    eapply hb_bind. { apply hb_ok. apply lift_any; auto. intros HI. apply hm_read_binary with (s0 := s); auto. }
    intros b s1 H1 (_ & E1). apply read_binary_cell in E1. destruct E1 as (o & C & D & V).
    unfold to_addr. destruct (N.of_nat (length b) =? 32); [|unfold hb, bind, throw; apply IU_TU; auto].
    eapply hb_bind with (Q := fun b' s' => b' = b /\ s' = s1). { apply hb_ret; auto. }
    intros b' s2 _ (-> & ->). apply hb_get. destruct (lfind addr_eqb b (s_bal s1)) as [n|] eqn:L.
    - apply hb_ret; auto. split; simpl; eauto.
    - eapply hb_bind with (Q := fun _ s' => s_mem s' = s_mem s1 /\ s_bal s' = s_bal s1).
      { apply lift_any; auto. intros HI. apply hm_add_gas; auto. }
      intros _ s3 H3 (M3 & B3). eapply hb_bind. { apply hu_stor_balance; auto. }
      intros v s4 H4 (M4 & B4 & V4).
      set (n := match v with Some n => n | None => 0 end) in *.
      eapply hb_bind with (Q := fun _ s' => s' = set_bal ((b, n) :: s_bal s4) s4).
      + apply hb_modify; auto. apply IU_ext with s4; simpl; auto using RW_refl; try lia.
        * destruct H4; auto.
        * intros cur. simpl s_bal. rewrite lfind_cons. destruct (addr_eqb_spec cur b) as [->|NE].
          -- rewrite B4, B3, L. exists 0. simpl. split; lia.
          -- simpl. destruct (lfind addr_eqb cur (s_bal s4)); auto.
      + intros _ s5 H5 ->. apply hb_ret; auto. split.
        * simpl. rewrite addr_eqb_refl. auto.
        * exists o. simpl in *. rewrite M4, M3. auto.
  Qed.
  Lemma hu_get_balance s c : IU s0 s -> hu s (get_balance bk c) any.
  Proof. intros. eapply hb_conseq; [apply hu_get_balance_known; auto|intros; exact Logic.I]. Qed.
  Hint Resolve hu_deref_value hu_get_balance : hu.
  Lemma hb_bind2 A B (I T I' T' : st -> Prop) s (m : M A) (k : A -> M B) (Q : A -> st -> Prop) Q' :
    hb I T s m Q -> (forall s', T s' -> T' s') -> (forall a s', I s' -> Q a s' -> hb I' T' s' (k a) Q') -> hb I' T' s (bind m k) Q'.
  Proof. unfold hb, bind. intros H HT K. destruct (m s) as [a s'|s'|s'|]; auto. destruct H as (H1 & H2). apply K; auto. Qed.
  Lemma read_binary_again s c b o : cell s (LMem c) = Some o -> f_deleted (o_fl o) = false -> o_val o = VBinary b ->
    read_binary bk c s = Ok b s.
  Proof.
    intros C D V. unfold read_binary, read_fail, read, bind, get. cbv beta. rewrite C. unfold ret. rewrite D, V. reflexivity.
  Qed.
  Lemma hu_vsend s a b c d : IU s0 s -> hu s (vsend bk a b c d) any.
  Proof.
    intros H. unfold vsend. apply hu_bind; [hu_auto|]. intros v s1 H1.
    destruct (v =? 0); [apply hu_ret; auto|]. destruct (negb (N.shiftr v 128 =? 0)); [apply hu_throw; auto|].
    destruct (c =? 0); [apply hu_throw; auto|].
    eapply hb_bind. { apply hu_get_balance_known; auto. }
    intros (cur, balance) s2 H2 (L & o & C & D & V). cbn [fst snd] in *.
    destruct (N.ltb_spec balance v) as [LT|GE]; [apply hu_throw; auto|].
    set (s3 := set_bal ((cur, balance - v) :: s_bal s2) s2).
    assert (ST : st_ok s3) by (destruct H2; auto).
    assert (TT : forall s', RmT s3 s' -> TU s0 s').
    { intros s' (R1 & R2). destruct H2 as [F G CC W Mi O VV]. unfold fixed in F. unfold rest in R1. simpl in R1, R2. split.
      - congruence.
      - congruence.
      - lia.
      - replace (s_world s') with (s_world s2) by congruence. auto. }
    assert (FIN : forall ad m s', Rm None s3 s' -> st_ok s' -> IU s0 (set_outs (s_outs s' ++ [mk_txout ad cur v m]) s')).
    { intros ad m s' [E1 E2 E3] K.
      assert (EW : s_world s' = s_world s2) by exact (rest_world _ _ E1).
      assert (EB : s_bal s' = (cur, balance - v) :: s_bal s2) by (unfold rest in E1; simpl in E1; congruence).
      assert (EO : s_outs s' = s_outs s2) by (unfold rest in E1; simpl in E1; congruence).
      assert (EF : fixed s' = fixed s2) by exact (rest_fixed _ _ E1).
      destruct H2 as [F G CC W Mi O VV].
      split; simpl; auto.
      - change (fixed s' = fixed s0). congruence.
      - change (s_gas s2 <= s_gas s') in E2. lia.
      - eapply Rcell_trans; [exact CC|]. exact E3.
      - rewrite EW. auto.
      - unfold mints_ok in *. simpl. unfold rest in E1; simpl in E1. replace (s_contract s') with (s_contract s2) by congruence.
        replace (s_mints s') with (s_mints s2) by congruence. auto.
      - apply VB_trans with s2; auto.
        + unfold fixed in F. congruence.
        + simpl. rewrite EW. apply RW_refl.
        + intros cu. simpl s_bal. simpl s_outs. rewrite EB, EO, lfind_cons, out_sum_app. cbn [out_sum fold_right to_currency to_amount].
          destruct (addr_eqb_spec cu cur) as [->|NE].
          * rewrite L, addr_eqb_refl. lia.
          * destruct (addr_eqb_spec cur cu); [congruence|]. destruct (lfind addr_eqb cu (s_bal s2)); lia. }
    unfold hb, bind at 1, modify at 1. fold s3. fold (hb (IU s0) (TU s0) s3 (c <- read_binary bk c ;; c <- to_addr c ;;
        a <- read_binary bk a ;; a <- to_addr a ;; m <- parse_memo bk d ;;
        modify (fun s => set_outs (s_outs s ++ [mk_txout a c v m]) s)) any).
    assert (I3 : inv None s3 s3) by (apply inv_refl; auto).
    eapply hb_bind2 with (I := inv None s3) (T := RmT s3) (Q := fun b' s' => b' = cur /\ s' = s3); auto.
    { unfold hb. rewrite (read_binary_again s3 c cur o) by auto. auto. }
    intros b' s' _ (-> & ->).
    eapply hb_bind2 with (I := inv None s3) (T := RmT s3) (Q := fun b' s' => b' = cur /\ s' = s3); auto.
    { unfold to_addr. destruct (N.of_nat (length cur) =? 32).
      - apply hb_ret; auto.
      - apply hb_throw. apply RmT_refl. }
    intros b' s' _ (-> & ->).
    eapply hb_bind2 with (I := inv None s3) (T := RmT s3); [apply hm_read_binary; auto|auto|]. intros ad0 s4 I4 _.
    eapply hb_bind2 with (I := inv None s3) (T := RmT s3); [apply hm_to_addr; auto|auto|]. intros ad s5 I5 _.
    eapply hb_bind2 with (I := inv None s3) (T := RmT s3); [apply hm_parse_memo; auto|auto|]. intros m s6 (I6 & K6) _.
    apply hb_modify; [|exact Logic.I]. apply FIN; auto.
  Qed.
  Lemma hu_vmint s a b c : IU s0 s -> hu s (vmint bk a b c) any.
  Proof. intros. unfold vmint. hu_auto. Qed.
  Lemma hu_read_balance s d c : IU s0 s -> hu s (read_balance bk d c) any.
  Proof. intros. unfold read_balance. hu_auto. Qed.
  Hint Resolve hu_vsend hu_vmint hu_read_balance : hu.

  Variable x : ext.
  Variable remote_call : bytes -> bytes -> N -> M unit.
  Variable read_contract : addr -> bytes -> N -> M unit.
  Hypothesis rc_ok : forall s n m k, IU s0 s -> hu s (remote_call n m k) any.
  Hypothesis rd_ok : forall s a f d, IU s0 s -> hu s (read_contract a f d) any.
  Hint Resolve rc_ok rd_ok : hu.
  Lemma hu_rcall s n m a b : IU s0 s -> hu s (rcall bk remote_call n m a b) any.
  Proof. intros. unfold rcall. hu_auto. Qed.
  Lemma hu_cread s a b c : IU s0 s -> hu s (cread bk read_contract a b c) any.
  Proof. intros. unfold cread. hu_auto. Qed.
  Lemma hu_adr_a s i : IU s0 s -> hu s (adr_a bk i) any.
  Proof. apply hu_deref_addr. Qed.
  Lemma hu_adr_b s i : IU s0 s -> hu s (adr_b bk i) any.
  Proof. apply hu_deref_addr. Qed.
  Lemma hu_adr_c s i : IU s0 s -> hu s (adr_c bk i) any.
  Proof. apply hu_deref_addr. Qed.
  Lemma hu_adr_d s i : IU s0 s -> hu s (adr_d bk i) any.
  Proof. apply hu_deref_addr. Qed.
  Lemma hu_val_a s i : IU s0 s -> hu s (val_a bk i) any.
  Proof. apply hu_deref_value. Qed.
  Lemma hu_val_b s i : IU s0 s -> hu s (val_b bk i) any.
  Proof. apply hu_deref_value. Qed.
  Lemma hu_val_c s i : IU s0 s -> hu s (val_c bk i) any.
  Proof. apply hu_deref_value. Qed.
  Lemma hu_val_d s i : IU s0 s -> hu s (val_d bk i) any.
  Proof. apply hu_deref_value. Qed.
  Hint Resolve hu_rcall hu_cread hu_adr_a hu_adr_b hu_adr_c hu_adr_d hu_val_a hu_val_b hu_val_c hu_val_d : hu.
  Lemma hu_next s : IU s0 s -> hu s next any.
  Proof. intros. unfold next. hu_auto. Qed.
  Lemma hu_arith s i f : IU s0 s -> hu s (arith bk i f) any.
  Proof. intros. unfold arith. hu_auto. Qed.
  Lemma hu_logic s i f g : IU s0 s -> hu s (logic bk i f g) any.
  Proof. intros. unfold logic. hu_auto. Qed.
  Lemma hu_shift s i f : IU s0 s -> hu s (shift bk i f) any.
  Proof. intros. unfold shift. hu_auto. Qed.
  Lemma hu_cmp s i b f : IU s0 s -> hu s (cmp bk i b f) any.
  Proof. intros. unfold cmp. hu_auto. Qed.
  Hint Resolve hu_next hu_arith hu_logic hu_shift hu_cmp : hu.
  Lemma hu_exec_op s i : IU s0 s -> hu s (exec_op bk x remote_call read_contract i) any.
  Proof. intros. unfold exec_op. hu_auto. Qed.
End UPPER.

Section RUN.
  Variable bk : backend.
  Hypothesis bk_ok : backend_ok bk.
  Variable locked : addr -> bool.
  Variable x : ext.
  Variable remote_call : bytes -> bytes -> N -> M unit.
  Variable read_contract : addr -> bytes -> N -> M unit.
  Variable lim : N.
  Notation IU := (IU bk locked). Notation TU := (TU bk locked).
  Hypothesis rc_ok : forall s n m k, mints_ok s -> st_ok s -> s_limit s <= lim -> hb (IU s) (TU s) s (remote_call n m k) any.
  Hypothesis rd_ok : forall s a f d, mints_ok s -> st_ok s -> hb (IU s) (TU s) s (read_contract a f d) any.
  Lemma rebase A s0 s (m : M A) Q : IU s0 s -> hb (IU s) (TU s) s m Q -> hb (IU s0) (TU s0) s m Q.
  Proof.
    intros H K. eapply hb_weaken; [exact K| |].
    - intros a s' R HQ. split; auto. eapply IU_trans; eauto.
    - intros s' R. eapply TU_trans; eauto.
  Qed.
  Lemma rc_ok0 s0 s n m k : s_limit s0 <= lim -> IU s0 s -> hb (IU s0) (TU s0) s (remote_call n m k) any.
  Proof.
    intros L H. apply rebase; auto. destruct H as [F G C W Mi O]. apply rc_ok; auto. unfold fixed in F. replace (s_limit s) with (s_limit s0) by congruence. auto.
  Qed.
  Lemma rd_ok0 s0 s a f d : IU s0 s -> hb (IU s0) (TU s0) s (read_contract a f d) any.
  Proof. intros H. apply rebase; auto. destruct H. apply rd_ok; auto. Qed.
  Lemma hu_exec s i : mints_ok s -> st_ok s -> s_limit s <= lim ->
    hb (IU s) (TU s) s (exec bk x remote_call read_contract i) (fun _ s' => s_gas s + INSTR_COST <= s_gas s').
  Proof.
    intros Mi O L. unfold exec. set (s1 := set_gas (s_gas s + INSTR_COST) s).
    assert (IU s s1) as H1.
    { eapply IU_ext; eauto using IU_refl, RW_refl; simpl; try lia; auto using RW_refl, VB_refl. }
    eapply hb_bind with (Q := fun _ s' => s' = s1).
    { unfold add_gas. apply hb_modify; auto. }
    intros ? s' H' ->.
    assert (mints_ok s1 /\ st_ok s1) as (Mi1 & O1) by (destruct H1; auto).
    apply rebase; auto.
    assert (hb (IU s1) (TU s1) s1 (n <- exec_op bk x remote_call read_contract i ;; if n : bool then next else ret tt) any) as K.
    { apply hu_bind.
      - apply hu_exec_op; auto using IU_refl.
        + intros. apply rc_ok0; auto.
        + intros. apply rd_ok0; auto.
      - intros n s2 H2. destruct n; [apply hu_next; auto|apply hu_ret; auto]. }
    eapply hb_conseq; [exact K|]. intros ? s2 [] _. simpl in iu_gas0. auto.
  Qed.
  Lemma hu_step s : mints_ok s -> st_ok s -> s_limit s <= lim ->
    hb (IU s) (TU s) s (step bk x remote_call read_contract) (fun _ s' => s_gas s + INSTR_COST <= s_gas s' /\ s_gas s' <= s_limit s').
  Proof.
    intros Mi O L. unfold step. pose proof (IU_refl bk locked s Mi O) as H.
    eapply hb_bind with (Q := fun _ s' => s' = s).
    { unfold get_frame. apply hb_get. destruct (s_frames s); [apply hb_throw; eapply IU_TU; eauto|apply hb_ret; auto]. }
    intros f s1 _ ->. apply hb_get. destruct (nth_error (s_code s) (N.to_nat (fst f))); [|apply hb_throw; eapply IU_TU; eauto].
    eapply hb_bind; [apply hu_exec; auto|]. intros ? s2 H2 G. simpl in G.
    unfold hb, check_gas. destruct (s_limit s2 <? s_gas s2) eqn:E.
    - destruct (IU_TU _ _ _ _ H2). split; auto.
    - split; auto. split; auto. apply N.ltb_ge in E. auto.
  Qed.
  (** the loop ends before the fuel is used up *)
  Lemma hu_run n : forall s, mints_ok s -> st_ok s -> s_limit s <= lim -> (0 < n)%nat -> s_limit s < s_gas s + INSTR_COST * N.of_nat n ->
    hb (IU s) (TU s) s (run bk x remote_call read_contract n) any.
  Proof.
    induction n as [|n IH]; intros s Mi O L Ln G; [lia|]. cbn [run]. apply hb_get.
    destruct (s_frames s) eqn:Fr; [apply hb_ret; [apply IU_refl; auto|exact Logic.I]|].
    eapply hb_bind; [apply hu_step; auto|]. intros ? s1 H1 (G1 & G2).
    assert (s_limit s1 = s_limit s) as LE. { destruct H1 as [F]. unfold fixed in F. congruence. }
    apply rebase; auto. destruct H1 as [F1 _ _ _ Mi1 O1]. apply IH; auto; try lia.
  Qed.

  (** ** committing to storage *)
  Lemma hu_stor_write s0 s a o : locked (s_contract s) = true -> hdr_ok (LMem a) (o_val o) -> IU s0 s ->
    hb (IU s0) (TU s0) s (stor_write a o) any.
  Proof.
    intros L K H. unfold stor_write. apply hb_get. destruct (s_ro s); [eapply hu_throw; eauto|].
    destruct (negb (ref_static (o_val o))); [eapply hu_throw; eauto|].
    destruct (f_key (o_fl o) && negb (f_const (o_fl o))); [eapply hu_throw; eauto|].
    set (g := (STOR_WRITE_COST + val_bytes (o_val o) * STOR_WRITE_BYTE_COST) * (if f_key (o_fl o) then 2 else 1)).
    clearbody g.
    eapply hb_bind with (Q := fun _ s' => s_contract s' = s_contract s).
    { unfold add_gas. apply hb_modify; auto. eapply IU_ext; eauto using RW_refl; simpl; try lia; auto using RW_refl, VB_refl. destruct H; auto. }
    intros ? s1 H1 C1. eapply hb_bind with (Q := fun _ s' => s_contract s' = s_contract s).
    { unfold hb, check_gas. destruct (s_limit s1 <? s_gas s1); auto. destruct (IU_TU _ _ _ _ H1). split; auto. }
    intros ? s2 H2 C2. apply hb_get. simpl in C2.
    destruct (ram_write (s_ram s2) (s_contract s2) a (to_svar o)) as [r|] eqn:E; [|eapply hu_throw; eauto].
    apply hu_modify; simpl; auto using VB_refl; try lia.
    - eapply RW_write; [|  |exact E]; [rewrite C2; auto|exact K].
    - destruct H2; auto.
  Qed.
  Lemma hu_stor_write_entry s0 s a k o : locked (s_contract s) = true -> hdr_ok (LEnt a k) (o_val o) -> IU s0 s ->
    hb (IU s0) (TU s0) s (stor_write_entry a k o) any.
  Proof.
    intros L K H. unfold stor_write_entry. apply hb_get. destruct (s_ro s); [eapply hu_throw; eauto|].
    destruct (negb (ref_static (o_val o))); [eapply hu_throw; eauto|].
    destruct (negb (o_rc o =? 0)); [eapply hu_throw; eauto|].
    eapply hb_bind with (Q := fun _ s' => s_contract s' = s_contract s).
    { unfold add_gas. apply hb_modify; auto. eapply IU_ext; eauto using RW_refl; simpl; try lia; auto using RW_refl, VB_refl. destruct H; auto. }
    intros ? s1 H1 C1. eapply hb_bind with (Q := fun _ s' => s_contract s' = s_contract s).
    { unfold hb, check_gas. destruct (s_limit s1 <? s_gas s1); auto. destruct (IU_TU _ _ _ _ H1). split; auto. }
    intros ? s2 H2 C2. simpl in C2.
    apply hu_modify; simpl; auto using VB_refl; try lia.
    - apply RW_write_entry; [|exact K]. rewrite C2. auto.
    - destruct H2; auto.
  Qed.
  Lemma IU_put_high s0 s l o : IU s0 s -> (match l with LMem a => MEM_STACK <= a | LEnt a _ => MEM_STACK <= a end) ->
    hdr_ok l (o_val o) -> IU s0 (put_cell l o s).
  Proof.
    intros H L K. eapply Rm_IU; eauto.
    - apply Rm_put; [apply Rm_refl|]. destruct l; [apply free_high|apply efree_high]; auto.
    - apply st_ok_put; auto. destruct H; auto.
  Qed.
  Lemma IU_contract s0 s : IU s0 s -> s_contract s = s_contract s0.
  Proof. intros [F]. unfold fixed in F. congruence. Qed.
  Lemma hu_commit_mem s0 l : locked (s_contract s0) = true ->
    Forall (fun e => MEM_STATIC <= fst e /\ hdr_ok (LMem (fst e)) (o_val (snd e))) l ->
    forall s, IU s0 s -> hb (IU s0) (TU s0) s (commit_mem l) any.
  Proof.
    intros L. induction 1 as [|(a, o) l (H1 & H2) _ IH]; intros s H; cbn [commit_mem]; [apply hu_ret; auto|]. simpl in H1, H2.
    apply hu_bind; [|intros; apply IH; auto]. destruct (f_dirty (o_fl o)); [|apply hu_ret; auto].
    apply hu_bind; [apply hu_stor_write; auto; rewrite (IU_contract _ _ H); auto|]. intros ? s1 K1.
    unfold put. apply hb_modify; [|exact Logic.I]. apply IU_put_high; auto. assert (MEM_STACK <= MEM_STATIC) by (vm_compute; discriminate). lia.
  Qed.
  Lemma hu_commit_ent s0 l : locked (s_contract s0) = true ->
    Forall (fun e => MEM_STATIC <= fst (fst e) /\ hdr_ok (LEnt (fst (fst e)) (snd (fst e))) (o_val (snd e))) l ->
    forall s, IU s0 s -> hb (IU s0) (TU s0) s (commit_ent l) any.
  Proof.
    intros L. induction 1 as [|((a, k), o) l (H1 & H2) _ IH]; intros s H; cbn [commit_ent]; [apply hu_ret; auto|]. simpl in H1, H2.
    apply hu_bind; [|intros; apply IH; auto]. destruct (f_dirty (o_fl o)); [|apply hu_ret; auto].
    apply hu_bind; [apply hu_stor_write_entry; auto; rewrite (IU_contract _ _ H); auto|]. intros ? s1 K1.
    unfold put. apply hb_modify; [|exact Logic.I]. apply IU_put_high; auto. assert (MEM_STACK <= MEM_STATIC) by (vm_compute; discriminate). lia.
  Qed.
  Lemma hu_commit s0 s : locked (s_contract s0) = true -> IU s0 s -> hb (IU s0) (TU s0) s (commit bk) (fun _ s' => s_gas s' <= s_limit s').
  Proof.
    intros L H. unfold commit. apply hu_bind; [apply hu_clear_stack; auto|]. intros ? s1 H1. apply hb_get.
    assert (st_ok s1) as ((O1 & O2) & _) by (destruct H1; auto).
    apply hu_bind.
    { apply hu_commit_mem; auto. apply Forall_forall. intros (ad, ob) Hin. apply filter_In in Hin. destruct Hin as (Hin & L2).
      apply N.leb_le in L2. split; [auto|exact (O1 _ _ Hin)]. }
    intros ? s2 H2. apply hu_bind.
    { apply hu_commit_ent; auto. apply Forall_forall. intros ((ad, ke), ob) Hin. apply filter_In in Hin. destruct Hin as (Hin & L2).
      apply N.leb_le in L2. split; [auto|exact (O2 _ _ _ Hin)]. }
    intros ? s3 H3. unfold hb, check_gas. destruct (s_limit s3 <? s_gas s3) eqn:E.
    - destruct (IU_TU _ _ _ _ H3). split; auto.
    - split; auto. apply N.ltb_ge in E. auto.
  Qed.
  (** ** the whole engine, also while it is set up *)
  Record IK (s0 s : st) : Prop := mk_IK {
    ik_limit : s_limit s = s_limit s0; ik_contract : s_contract s = s_contract s0; ik_gas : s_gas s0 <= s_gas s;
    ik_world : RW bk locked (s_world s0) (s_world s); ik_mints : mints_ok s; ik_ok : st_ok s }.
  Lemma IK_refl s : mints_ok s -> st_ok s -> IK s s.
  Proof. intros. split; auto using RW_refl. lia. Qed.
  Lemma IK_TU s0 s : IK s0 s -> TU s0 s.
  Proof. intros []. split; auto. Qed.
  Lemma IK_IU s0 s1 s2 : IK s0 s1 -> IU s1 s2 -> IK s0 s2.
  Proof. intros [] [F]. unfold fixed in F. split; eauto using RW_trans; try congruence. lia. Qed.
  Lemma IK_TU2 s0 s1 s2 : IK s0 s1 -> TU s1 s2 -> TU s0 s2.
  Proof. intros [] []. split; eauto using RW_trans; try congruence. lia. Qed.
  Lemma IK_trans s0 s1 s2 : IK s0 s1 -> IK s1 s2 -> IK s0 s2.
  Proof. intros [] []. split; eauto using RW_trans; try congruence. lia. Qed.
  Lemma ik_up A s0 s (m : M A) Q : IK s0 s -> hb (IU s) (TU s) s m Q -> hb (IK s0) (TU s0) s m Q.
  Proof.
    intros H K. eapply hb_weaken; [exact K| |].
    - intros a s' R HQ. split; auto. eapply IK_IU; eauto.
    - intros s' R. eapply IK_TU2; eauto.
  Qed.
  Lemma ik_rebase A s0 s (m : M A) Q : IK s0 s -> hb (IK s) (TU s) s m Q -> hb (IK s0) (TU s0) s m Q.
  Proof.
    intros H K. eapply hb_weaken; [exact K| |].
    - intros a s' R HQ. split; auto. eapply IK_trans; eauto.
    - intros s' R. eapply IK_TU2; eauto.
  Qed.
  Lemma ik_mem A s0 s (m : M A) Q : IK s0 s -> (inv None s s -> hb (inv None s) (RmT s) s m Q) -> hb (IK s0) (TU s0) s m Q.
  Proof.
    intros H K. apply ik_up; auto. apply lift_any; auto. destruct H. apply IU_refl; auto.
  Qed.
  Lemma ik_throw A s0 s (Q : A -> st -> Prop) : IK s0 s -> hb (IK s0) (TU s0) s throw Q.
  Proof. intros. apply hb_throw. apply IK_TU. auto. Qed.
  Lemma ik_ret A s0 s (a : A) : IK s0 s -> hb (IK s0) (TU s0) s (ret a) any.
  Proof. intros. apply hb_ret; auto. exact Logic.I. Qed.
  Lemma ik_bind A B s0 s (m : M A) (k : A -> M B) Q' :
    hb (IK s0) (TU s0) s m any -> (forall a s', IK s0 s' -> hb (IK s0) (TU s0) s' (k a) Q') -> hb (IK s0) (TU s0) s (bind m k) Q'.
  Proof. intros. eapply hb_bind; eauto. Qed.
  Lemma ik_check_gas s0 s : IK s0 s -> hb (IK s0) (TU s0) s check_gas (fun _ s' => s' = s /\ s_gas s' <= s_limit s').
  Proof.
    intros H. unfold hb, check_gas. destruct (s_limit s <? s_gas s) eqn:E.
    - destruct (IK_TU _ _ H). split; auto.
    - split; auto. split; auto. apply N.ltb_ge in E. auto.
  Qed.
  Lemma ik_begin s0 s ip : IK s0 s -> hb (IK s0) (TU s0) s (begin ip) any.
  Proof.
    intros H. unfold begin. apply hb_get. destruct (negb (s_init s)); [apply ik_throw; auto|].
    destruct (s_frames s); [|apply ik_throw; auto]. apply hb_modify; [|exact Logic.I].
    destruct H as [? ? ? ? ? ((O1 & O2) & O3)]. split; auto. split; auto. split; auto. simpl.
    intros a o Hin. apply in_map_iff in Hin. destruct Hin as ((b, u) & E & Hin). simpl in E.
    destruct (b <? MEM_STACK); injection E as <- <-; exact (O1 _ _ Hin).
  Qed.
  Lemma ik_init s0 s : IK s0 s -> hb (IK s0) (TU s0) s init any.
  Proof.
    intros H. unfold init. apply hb_get. destruct (s_init s); [apply ik_throw; auto|]. apply hb_modify; [|exact Logic.I].
    destruct H. split; auto.
  Qed.
  Lemma ik_load_constants s0 l : forall s d, IK s0 s -> hb (IK s0) (TU s0) s (load_constants bk l d) any.
  Proof.
    induction l as [|v l IH]; intros s d H; cbn [load_constants]; [apply ik_ret; auto|].
    apply ik_bind; [apply ik_mem; auto with hm|]. intros. apply IH; auto.
  Qed.
  Lemma ik_load_binary s0 s c co : IK s0 s -> hb (IK s0) (TU s0) s (load_binary bk c co) any.
  Proof.
    intros H. unfold load_binary. apply ik_bind; [apply ik_mem; auto with hm|]. intros l s1 H1.
    apply ik_bind; [destruct (MEM_EXTERN <=? N.of_nat (length l)); [apply ik_throw|apply ik_ret]; auto|]. intros ? s2 H2.
    apply ik_bind; [apply ik_load_constants; auto|]. intros ? s3 H3.
    apply ik_bind; [apply ik_mem; auto with hm|]. intros code s4 H4.
    apply ik_bind; [apply hb_modify; [|exact Logic.I]; destruct H4; split; auto|]. intros ? s5 H5.
    apply ik_bind; [apply ik_init; auto|]. intros ? s6 H6. apply ik_mem; auto with hm.
  Qed.
  Lemma ik_execute s0 s fuel ip ic : locked (s_contract s0) = true -> s_limit s0 <= lim -> IK s0 s ->
    (0 < fuel)%nat -> s_limit s0 < INSTR_COST * N.of_nat fuel ->
    hb (IK s0) (TU s0) s (execute bk x remote_call read_contract fuel ip ic) (fun _ s' => s_gas s' <= s_limit s').
  Proof.
    intros L LL H Lf Lf2. unfold execute. apply ik_bind; [apply ik_begin; auto|]. intros ? s1 H1.
    apply ik_bind; [apply ik_up; auto; destruct H1; apply hu_run; auto; lia|]. intros ? s2 H2.
    apply ik_bind.
    { destruct ic; [apply ik_ret; auto|]. apply ik_up; auto. eapply hb_conseq.
      - apply hu_commit; [destruct H2; congruence|]. destruct H2. apply IU_refl; auto.
      - intros. exact Logic.I. }
    intros ? s3 H3. eapply hb_conseq; [apply ik_check_gas; auto|]. intros ? s4 _ (-> & G). auto.
  Qed.
End RUN.
