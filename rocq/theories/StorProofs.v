(** A stack of caches over the database behaves like a stack of snapshots *)
Require Import List Arith NArith ZArith Bool Lia.
From Verif Require Import BytesLib OrdLib VarModel VarSpec VarProofs EngineModel EngineSpec EngineProofs EngineUpper StorModel StorSpec.
Import ListNotations.
Open Scope N_scope.

(** ** Lists of pairs *)
Lemma mem_eqb_spec x y : Bool.reflect (x = y) (mem_eqb x y).
Proof.
  destruct x as (a, b), y as (c, d). unfold mem_eqb. simpl.
  destruct (addr_eqb_spec a c), (N.eqb_spec b d); simpl; constructor; congruence.
Qed.
Lemma ent_eqb_spec x y : Bool.reflect (x = y) (ent_eqb x y).
Proof.
  destruct x as (a, (b, e)), y as (c, (d, g)). unfold ent_eqb. simpl.
  destruct (addr_eqb_spec a c), (N.eqb_spec b d), (N.eqb_spec e g); simpl; constructor; congruence.
Qed.

Section ITEMS.
  Context {K V : Type} (cmp : K -> K -> comparison) (TC : TotalCmp cmp) (eqb : K -> K -> bool)
          (EQ : forall x y, Bool.reflect (x = y) (eqb x y)).
  Lemma items_sorted (l : list (K * V)) : asorted cmp (items cmp l).
  Proof. induction l as [|(k, v) l IH]; simpl; [constructor|]. now apply aset_sorted. Qed.
  Lemma items_get (l : list (K * V)) k : aget cmp k (items cmp l) = lfind eqb k l.
  Proof.
    induction l as [|(k', v) l IH]; auto. simpl. rewrite aget_aset by (auto; apply items_sorted). rewrite IH.
    destruct (EQ k k') as [->|NE].
    - rewrite (cmp_refl TC). auto.
    - destruct (cmp k k') eqn:E; auto. apply (tc_eq TC) in E. congruence.
  Qed.
  Lemma lfind_in (l : list (K * V)) k v : lfind eqb k l = Some v -> In (k, v) l.
  Proof.
    induction l as [|(k', v') l IH]; simpl; [discriminate|]. destruct (EQ k k') as [->|NE]; [intros [= ->]; auto|auto].
  Qed.
  Lemma lfind_out (l : list (K * V)) k : ~ In k (map fst l) -> lfind eqb k l = None.
  Proof.
    induction l as [|(k', v') l IH]; simpl; auto. intros H. destruct (EQ k k') as [->|NE]; [tauto|]. apply IH. tauto.
  Qed.
  Lemma lfind_nodup (l : list (K * V)) k v : NoDup (map fst l) -> In (k, v) l -> lfind eqb k l = Some v.
  Proof.
    induction l as [|(k', v') l IH]; simpl; [tauto|]. intros ND [[= -> ->]|H].
    - destruct (EQ k k); congruence.
    - inversion ND as [|? ? NI ND']; subst. destruct (EQ k k') as [->|NE]; auto. exfalso. apply NI. apply (in_map fst) in H. exact H.
  Qed.
  Lemma sorted_nodup (l : list (K * V)) : asorted cmp l -> NoDup (map fst l).
  Proof.
    induction l as [|(k, v) l IH]; simpl; [constructor|]. intros S. destruct (asorted_cons_inv S) as (S' & F).
    constructor; auto. intros H. apply in_map_iff in H. destruct H as ((k', v') & E & H). simpl in E. subst k'.
    apply F in H. exact (klt_irrefl TC H).
  Qed.
  Lemma aget_lfind (l : list (K * V)) k : aget cmp k l = lfind eqb k l.
  Proof.
    induction l as [|(k', v') l IH]; auto. simpl. rewrite IH. destruct (EQ k k') as [->|NE].
    - now rewrite (cmp_refl TC).
    - destruct (cmp k k') eqn:E; auto. apply (tc_eq TC) in E. congruence.
  Qed.
  Lemma items_find (l : list (K * V)) k : lfind eqb k (items cmp l) = lfind eqb k l.
  Proof. now rewrite <- aget_lfind, items_get. Qed.
  Lemma items_nodup (l : list (K * V)) : NoDup (map fst (items cmp l)).
  Proof. apply sorted_nodup, items_sorted. Qed.
  Lemma items_in (l : list (K * V)) k v : In (k, v) (items cmp l) -> In (k, v) l.
  Proof. intros H. apply lfind_in. rewrite <- items_find. apply lfind_nodup; auto. apply items_nodup. Qed.
End ITEMS.
Lemma mem_cmp_total : TotalCmp mem_cmp.
Proof. apply lexcmp_total; [apply bytescmp_total|apply Ncompare_total]. Qed.
Lemma ent_cmp_total : TotalCmp ent_cmp.
Proof. apply lexcmp_total; [apply bytescmp_total|]. apply lexcmp_total; apply Ncompare_total. Qed.
Lemma bal_cmp_total : TotalCmp bal_cmp.
Proof. apply lexcmp_total; apply bytescmp_total. Qed.

(** ** Encoding of variables and keys in the database *)
Lemma fl_bits_of f : fl_of (fl_bits f) = f.
Proof. destruct f as [[] [] [] [] []]; reflexivity. Qed.
Lemma fl_bits_bound f : fl_bits f < 256.
Proof. destruct f as [[] [] [] [] []]; reflexivity. Qed.
Lemma load_serialize v : svar_ok v -> load_var (serialize (var_of_svar v) false true) = Some (no_rc v).
Proof.
  intros (HR & HV). unfold load_var. set (b := serialize (var_of_svar v) false true).
  assert (OK : var_ok (var_of_svar v)) by (split; [exact HR|split; [apply fl_bits_bound|exact HV]]).
  pose proof (round_trip (var_of_svar v) false true [] (fun _ => 0) OK) as RT. cbv zeta in RT. rewrite app_nil_r in RT.
  fold b in RT.
  destruct (deserialize_bounds (fun i => nth i b 0) (buffer b (fun _ => 0)) (length b) false true) as (E & _).
  { intros i Hi. unfold buffer. apply Nat.ltb_lt in Hi. now rewrite Hi. }
  rewrite E, RT. unfold svar_of_var, stored_part, no_rc. cbn. now rewrite fl_bits_of.
Qed.
Lemma load_no_rc b v : load_var b = Some v -> no_rc v = v.
Proof.
  unfold load_var, deserialize, get_flags, get_typed.
  set (d := fun i : nat => nth i b 0). intros H.
  destruct (length b <? 0 + 1)%nat; [discriminate|]. destruct (length b <? 0 + 1 + 1)%nat; [discriminate|].
  destruct (get_val _ _ _ _) as [(w, o)|]; [|discriminate]. injection H as <-. reflexivity.
Qed.

Section U.
  Variable U : addr -> Prop.
  Variable DP : distinct_prefix U.

  Lemma u64 a : a < 2 ^ 64 -> a < 256 ^ N.of_nat 8. Proof. exact (fun H => H). Qed.
  Lemma addr_eqb_iff x y (P : bool) : (x = y <-> P = true) -> addr_eqb x y = P.
  Proof. intros H. destruct (addr_eqb_spec x y) as [E|E], P; auto; [symmetry; tauto|exfalso; apply E; tauto]. Qed.
  Lemma firstn_same c c' (t t' : bytes) : U c -> U c' -> firstn 20 c ++ t = firstn 20 c' ++ t' -> c = c' /\ t = t'.
  Proof.
    intros H H' E. destruct DP as (L & P). apply app_len_inj in E.
    - destruct E; auto.
    - rewrite !firstn_length, (L c H), (L c' H'). auto.
  Qed.
  Lemma get_key_eq c c' a a' : U c -> U c' -> a < 2 ^ 64 -> a' < 2 ^ 64 ->
    addr_eqb (get_key c' a') (get_key c a) = addr_eqb c' c && (a' =? a).
  Proof.
    intros H H' A A'. apply addr_eqb_iff. unfold get_key, HASH_KEY_SIZE. split.
    - intros E. apply firstn_same in E; auto. destruct E as (-> & E). apply be_inj in E; auto. subst.
      now rewrite addr_eqb_refl, N.eqb_refl.
    - intros E. apply andb_prop in E. destruct E as (E1 & E2). apply N.eqb_eq in E2. subst.
      destruct (addr_eqb_spec c' c); [now subst|discriminate].
  Qed.
  Lemma entry_key_eq c c' a a' k k' : U c -> U c' -> a < 2 ^ 64 -> a' < 2 ^ 64 -> k < 2 ^ 64 -> k' < 2 ^ 64 ->
    addr_eqb (write_entry_key c' a' k') (write_entry_key c a k) = addr_eqb c' c && (a' =? a) && (k' =? k).
  Proof.
    intros H H' A A' B B'. apply addr_eqb_iff. unfold write_entry_key, HASH_KEY_SIZE. split.
    - intros E. apply firstn_same in E; auto. destruct E as (-> & E). apply app_len_inj in E; [|now rewrite !be_length].
      destruct E as (E & E2). apply be_inj in E; auto. apply be_inj in E2; auto. subst.
      now rewrite addr_eqb_refl, !N.eqb_refl.
    - intros E. apply andb_prop in E. destruct E as (E & E3). apply andb_prop in E. destruct E as (E1 & E2).
      apply N.eqb_eq in E2, E3. subst. destruct (addr_eqb_spec c' c); [now subst|discriminate].
  Qed.
  Lemma index_key_eq c c' v v' : U c -> U c' -> val_ok v -> val_ok v' ->
    addr_eqb (write_index_key c' v') (write_index_key c v) = true <-> c' = c /\ v' = v.
  Proof.
    intros H H' V V'. destruct DP as (L & _). unfold write_index_key.
    destruct (addr_eqb_spec (c' ++ serialize {| v_rc := 0; v_flags := 0; v_val := v' |} false false)
                            (c ++ serialize {| v_rc := 0; v_flags := 0; v_val := v |} false false)) as [E|E]; split; try discriminate; auto.
    - intros _. apply app_len_inj in E; [|now rewrite (L c H), (L c' H')]. destruct E as (-> & E). split; auto.
      assert (OK : forall u, val_ok u -> var_ok {| v_rc := 0; v_flags := 0; v_val := u |}) by (intros u Hu; repeat split; auto).
      pose proof (round_trip _ false false [] (fun _ => 0) (OK v' V')) as A.
      pose proof (round_trip _ false false [] (fun _ => 0) (OK v V)) as B. cbv zeta in A, B.
      rewrite E, B in A. now injection A.
    - intros (-> & ->). congruence.
  Qed.

  (** ** A write is seen by every later read, and changes nothing else *)
  Definition norm (s : storage) (v : svar) : svar := match s with SDb _ => no_rc v | SCache _ _ => v end.
  Lemma ram_write_read r r' c a v : ram_write r c a v = Some r' ->
    forall c' a', ram_read r' c' a' = if addr_eqb c' c && (a' =? a) then Some v else ram_read r c' a'.
  Proof.
    unfold ram_write. intros H c' a'.
    assert (E : r_mem r' = ((c, a), v) :: r_mem r).
    { destruct (ram_read r c a) as [o|]; [destruct (f_key (sv_fl o)); [discriminate|]|]; injection H as <-; auto. }
    unfold ram_read at 1. rewrite E, lfind_cons. reflexivity.
  Qed.
  Lemma ram_write_other r r' c a v : ram_write r c a v = Some r' -> r_ent r' = r_ent r /\ r_bal r' = r_bal r /\
    r_keys r' = if f_key (sv_fl v) then ((c, sv_val v), a) :: r_keys r else r_keys r.
  Proof.
    unfold ram_write. intros H. destruct (ram_read r c a) as [o|]; [destruct (f_key (sv_fl o)); [discriminate|]|]; injection H as <-; auto.
  Qed.
  Lemma write_read s s' c a v c' a' : s_write s c a v = Some s' -> U c -> U c' -> a < 2 ^ 64 -> a' < 2 ^ 64 -> svar_ok v ->
    s_read s' c' a' = if addr_eqb c' c && (a' =? a) then Some (norm s v) else s_read s c' a'.
  Proof.
    destruct s as [d|r b]; simpl.
    - intros H Uc Uc' A A' OK. injection H as <-. unfold s_read, sdb_read, sdb_write. cbn [d_tab].
      rewrite lfind_cons, get_key_eq by auto. destruct (addr_eqb c' c && (a' =? a)); auto. now apply load_serialize.
    - intros H Uc Uc' A A' OK. destruct (ram_write r c a v) as [r'|] eqn:E; [|discriminate]. injection H as <-. simpl.
      rewrite (ram_write_read _ _ _ _ _ E). destruct (addr_eqb c' c && (a' =? a)); auto.
  Qed.
  Lemma write_entry_same s s' c a v c' a' k' : s_write s c a v = Some s' -> s_entry s' c' a' k' = s_entry s c' a' k'.
  Proof.
    destruct s as [d|r b]; simpl; intros H.
    - injection H as <-. auto.
    - destruct (ram_write r c a v) as [r'|] eqn:E; [|discriminate]. injection H as <-. simpl. unfold ram_read_entry.
      now destruct (ram_write_other _ _ _ _ _ E) as (-> & _).
  Qed.
  Definition s_bal (s : storage) (c cur : addr) : option N := fst (s_get_balance s c cur).
  Lemma s_bal_cache r b c cur :
    s_bal (SCache r b) c cur = match ram_balance r c cur with Some n => Some n | None => s_bal b c cur end.
  Proof.
    unfold s_bal. simpl. destruct (ram_balance r c cur); auto. destruct (s_get_balance b c cur); auto.
  Qed.
  Lemma write_bal_same s s' c a v c' cur : s_write s c a v = Some s' -> s_bal s' c' cur = s_bal s c' cur.
  Proof.
    destruct s as [d|r b]; simpl; intros H.
    - injection H as <-. auto.
    - destruct (ram_write r c a v) as [r'|] eqn:E; [|discriminate]. injection H as <-. rewrite !s_bal_cache. unfold ram_balance.
      now destruct (ram_write_other _ _ _ _ _ E) as (_ & -> & _).
  Qed.
  Lemma same_eq v w : not_array w -> same_value v w <-> v = w.
  Proof. intros H. destruct v, w; simpl in *; tauto. Qed.
  Lemma key_eqb_true c c' v v' : not_array v -> (key_eqb (c', v') (c, v) = true <-> c' = c /\ v' = v).
  Proof.
    intros NA. unfold key_eqb. simpl. destruct (addr_eqb_spec c' c) as [->|NE]; simpl.
    - rewrite Z.eqb_eq, compare_eq, same_eq by auto. tauto.
    - split; [discriminate|tauto].
  Qed.
  (** the address a key has after a write *)
  Lemma write_lookup s s' c a v c' v' : s_write s c a v = Some s' -> U c -> U c' -> 0 < a < 2 ^ 64 -> svar_ok v -> val_ok v' ->
    (is_key v -> not_array (sv_val v)) ->
    (is_key v -> c' = c -> v' = sv_val v -> s_lookup s' c' v' = a) /\
    (~ (is_key v /\ c' = c /\ v' = sv_val v) -> s_lookup s' c' v' = s_lookup s c' v').
  Proof.
    intros H Uc Uc' A OK OK' NA. destruct s as [d|r b]; simpl in H.
    - injection H as <-. unfold s_lookup, sdb_lookup, sdb_write, is_key in *. cbn [d_idx].
      destruct (f_key (sv_fl v)) eqn:K.
      + rewrite lfind_cons. destruct OK as (_ & OK).
        pose proof (index_key_eq c c' (sv_val v) v' Uc Uc' OK OK') as IK.
        destruct (addr_eqb (write_index_key c' v') (write_index_key c (sv_val v))) eqn:E.
        * split; [|intros N; exfalso; apply N; tauto]. intros _ _ _.
          rewrite firstn_all2 by (rewrite le_length; auto). apply of_le_le_small. apply u64; tauto.
        * split; auto. intros _ -> ->. exfalso. destruct IK as (_ & IK). discriminate IK. auto.
      + split; [discriminate|auto].
    - destruct (ram_write r c a v) as [r'|] eqn:E; [|discriminate]. injection H as <-. simpl.
      destruct (ram_write_other _ _ _ _ _ E) as (_ & _ & EK). unfold ram_lookup. rewrite EK. unfold is_key in *.
      destruct (f_key (sv_fl v)) eqn:K.
      + rewrite lfind_cons. pose proof (key_eqb_true c c' (sv_val v) v' (NA eq_refl)) as KE.
        destruct (key_eqb (c', v') (c, sv_val v)) eqn:E2.
        * split; [|intros N; exfalso; apply N; tauto]. intros _ _ _. destruct (N.eqb_spec a 0); [lia|auto].
        * split; [|auto]. intros _ -> ->. destruct KE as (_ & KE). discriminate KE. auto.
      + split; [discriminate|auto].
  Qed.
  Lemma entry_read s c a k v c' a' k' : U c -> U c' -> a < 2 ^ 64 -> a' < 2 ^ 64 -> k < 2 ^ 64 -> k' < 2 ^ 64 -> svar_ok v ->
    s_entry (s_write_entry s c a k v) c' a' k' =
    if addr_eqb c' c && (a' =? a) && (k' =? k) then Some (norm s v) else s_entry s c' a' k'.
  Proof.
    intros Uc Uc' A A' B B' OK. destruct s as [d|r b]; simpl.
    - unfold sdb_entry, sdb_write_entry. cbn [d_ent]. rewrite lfind_cons, entry_key_eq by auto.
      destruct (addr_eqb c' c && (a' =? a) && (k' =? k)); auto. now apply load_serialize.
    - unfold ram_read_entry, ram_write_entry. cbn [r_ent]. rewrite lfind_cons. unfold ent_eqb. simpl.
      destruct (addr_eqb c' c && (a' =? a) && (k' =? k)); auto.
  Qed.
  Lemma entry_same s c a k v : let s' := s_write_entry s c a k v in
    (forall c' a', s_read s' c' a' = s_read s c' a') /\ (forall c' w, s_lookup s' c' w = s_lookup s c' w) /\
    (forall c' cur, s_bal s' c' cur = s_bal s c' cur).
  Proof. destruct s as [d|r b]; simpl; (split; [|split]); auto. intros. now rewrite !s_bal_cache. Qed.
  Lemma balance_read r b c cur n c' cur' :
    s_bal (s_set_balance (SCache r b) c cur n) c' cur' = if addr_eqb c' c && addr_eqb cur' cur then Some n else s_bal (SCache r b) c' cur'.
  Proof.
    simpl. rewrite !s_bal_cache. unfold ram_balance, ram_set_balance. cbn [r_bal]. rewrite lfind_cons. unfold bal_eqb. simpl.
    destruct (addr_eqb c' c && addr_eqb cur' cur); auto.
  Qed.
  Lemma balance_same s c cur n : let s' := s_set_balance s c cur n in
    (forall c' a', s_read s' c' a' = s_read s c' a') /\ (forall c' w, s_lookup s' c' w = s_lookup s c' w) /\
    (forall c' a' k', s_entry s' c' a' k' = s_entry s c' a' k').
  Proof. destruct s as [d|r b]; simpl; repeat split; auto. Qed.
  Lemma get_same c cur s : let s' := snd (s_get_balance s c cur) in
    (forall c' a', s_read s' c' a' = s_read s c' a') /\ (forall c' w, s_lookup s' c' w = s_lookup s c' w) /\
    (forall c' a' k', s_entry s' c' a' k' = s_entry s c' a' k') /\ (forall c' cur', s_bal s' c' cur' = s_bal s c' cur').
  Proof.
    induction s as [d|r b IH]; simpl; [repeat split; auto|]. destruct IH as (I1 & I2 & I3 & I4).
    destruct (ram_balance r c cur) as [n|] eqn:RB; [repeat split; auto|].
    destruct (s_get_balance b c cur) as (n, b') eqn:E. simpl in *.
    assert (E2 : s_bal b c cur = n) by (unfold s_bal; now rewrite E).
    destruct n as [n|]; simpl; repeat split; intros.
    all: try (now rewrite ?I1, ?I2, ?I3).
    all: rewrite !s_bal_cache, ?I4; auto.
    unfold ram_balance at 1, ram_set_balance. cbn [r_bal]. rewrite lfind_cons. destruct (bal_eqb_spec (c', cur') (c, cur)) as [EQ|NE].
    - injection EQ as -> ->. now rewrite RB.
    - reflexivity.
  Qed.

  (** ** Keys *)
  Definition keys_unique (s : storage) : Prop := forall c a a' k k', U c -> a < 2 ^ 64 -> a' < 2 ^ 64 ->
    s_read s c a = Some k -> s_read s c a' = Some k' -> is_key k -> is_key k' -> sv_val k = sv_val k' -> a = a'.
  Definition keys_found (s : storage) : Prop := forall c v, U c -> val_ok v -> not_array v ->
    (s_lookup s c v <> 0 -> s_lookup s c v < 2 ^ 64 /\ exists k, s_read s c (s_lookup s c v) = Some k /\ is_key k /\ sv_val k = v) /\
    (forall a k, a < 2 ^ 64 -> s_read s c a = Some k -> is_key k -> sv_val k = v -> 0 < a /\ s_lookup s c v = a).
  (** which writes keep this *)
  Definition fits (s : storage) (c : addr) (a : N) (v : svar) : Prop :=
    U c /\ 0 < a < 2 ^ 64 /\ svar_ok v /\ (forall k, s_read s c a = Some k -> ~ is_key k)
    /\ (is_key v -> not_array (sv_val v) /\ forall a' k, a' < 2 ^ 64 -> s_read s c a' = Some k -> is_key k -> sv_val k = sv_val v -> a' = a).
  Lemma norm_key s v : (is_key (norm s v) <-> is_key v) /\ sv_val (norm s v) = sv_val v.
  Proof. destruct s; simpl; split; auto; reflexivity. Qed.
  Lemma write_keys s s' c a v : s_write s c a v = Some s' -> fits s c a v -> keys_found s -> keys_found s'.
  Proof.
    intros H (Uc & A & OK & NK & KV) KF c' v' Uc' OK' NA'.
    assert (A2 : a < 2 ^ 64) by apply A.
    pose proof (fun a' => write_read _ _ _ _ _ c' a' H Uc Uc' A2) as WR.
    destruct (write_lookup _ _ _ _ _ c' v' H Uc Uc' A OK OK' (fun K => proj1 (KV K))) as (WL1 & WL2).
    destruct (KF c' v' Uc' OK' NA') as (KF1 & KF2).
    destruct (norm_key s v) as (NKK & NKV).
    destruct (f_key (sv_fl v)) eqn:K.
    - destruct (addr_eqb_spec c' c) as [->|NC].
      + assert (DEC : v' = sv_val v \/ v' <> sv_val v).
        { destruct (Z.eq_dec (compare v' (sv_val v)) 0) as [E|E].
          - left. apply compare_eq in E. apply same_eq in E; auto. now apply KV.
          - right. intros ->. apply E. apply compare_eq. destruct (sv_val v); simpl; auto. }
        destruct DEC as [->|NV].
        * rewrite WL1 by auto. split.
          -- intros _. split; auto. exists (norm s v). rewrite WR by auto. rewrite ?addr_eqb_refl, N.eqb_refl. simpl. tauto.
          -- intros a' k Ha' R IK E. rewrite WR in R by auto. rewrite ?addr_eqb_refl in R. simpl in R.
             assert (a' = a) as ->; [|split; [apply A|auto]].
             destruct (N.eqb_spec a' a) as [->|NA]; auto. destruct (KV K) as (_ & KU). eapply KU; eauto.
        * rewrite WL2 by tauto. split.
          -- intros NZ. destruct (KF1 NZ) as (LB & k & R & IK & E). split; auto. exists k. rewrite WR by auto.
             destruct (N.eqb_spec (s_lookup s c v') a) as [EA|NA].
             ++ exfalso. rewrite EA in R. now apply (NK k).
             ++ rewrite andb_false_r. auto.
          -- intros a' k Ha' R IK E. rewrite WR in R by auto. rewrite ?addr_eqb_refl in R. simpl in R. destruct (a' =? a); [|eauto].
             injection R as <-. congruence.
      + rewrite WL2 by tauto. destruct (addr_eqb_spec c' c) as [|_] in WR; [congruence|]. simpl in WR. split.
        * intros NZ. destruct (KF1 NZ) as (LB & k & R & IK & E). split; auto. exists k. rewrite WR by auto. auto.
        * intros a' k Ha' R IK E. rewrite WR in R by auto. eauto.
    - rewrite WL2 by (unfold is_key; rewrite K; intros ([=] & _)). split.
      + intros NZ. destruct (KF1 NZ) as (LB & k & R & IK & E). split; auto. exists k. rewrite WR by auto.
        destruct (addr_eqb c' c && (s_lookup s c' v' =? a)) eqn:B; auto. exfalso.
        apply andb_prop in B. destruct B as (B1 & B2). apply N.eqb_eq in B2. destruct (addr_eqb_spec c' c); [subst|discriminate].
        now apply (NK k).
      + intros a' k Ha' R IK E. rewrite WR in R by auto. destruct (addr_eqb c' c && (a' =? a)); [|eauto].
        injection R as <-. apply NKK in IK. unfold is_key in IK. congruence.
  Qed.
  Lemma write_unique s s' c a v : s_write s c a v = Some s' -> fits s c a v -> keys_unique s -> keys_unique s'.
  Proof.
    intros H (Uc & A & OK & NK & KV) KU c' a1 a2 k1 k2 Uc' A1 A2 R1 R2 I1 I2 E.
    assert (A3 : a < 2 ^ 64) by apply A.
    rewrite (write_read _ _ _ _ _ _ _ H) in R1 by auto. rewrite (write_read _ _ _ _ _ _ _ H) in R2 by auto. destruct (norm_key s v) as (NKK & NKV).
    destruct (addr_eqb_spec c' c) as [->|NC]; simpl in R1, R2; [|eapply KU; eauto].
    destruct (N.eqb_spec a1 a) as [->|N1], (N.eqb_spec a2 a) as [->|N2]; auto.
    - injection R1 as <-. symmetry. apply NKK in I1. destruct (KV I1) as (_ & KX). eapply KX; eauto. congruence.
    - injection R2 as <-. apply NKK in I2. destruct (KV I2) as (_ & KX). eapply KX; eauto. congruence.
    - eapply KU; eauto.
  Qed.

  (** ** What holds of every storage that is reached *)
  Definition mem_dom (e : (addr * N) * svar) : Prop :=
    U (fst (fst e)) /\ 0 < snd (fst e) < 2 ^ 64 /\ svar_ok (snd e) /\ (is_key (snd e) -> not_array (sv_val (snd e))).
  Definition ent_dom (e : (addr * (N * N)) * svar) : Prop :=
    U (fst (fst e)) /\ fst (snd (fst e)) < 2 ^ 64 /\ snd (snd (fst e)) < 2 ^ 64 /\ svar_ok (snd e).
  Definition nover (r : ram) (b : storage) : Prop :=
    forall c a v k, ram_read r c a = Some v -> s_read b c a = Some k -> ~ is_key k.
  Fixpoint INV (s : storage) : Prop :=
    keys_found s /\ keys_unique s /\
    match s with
    | SDb _ => True
    | SCache r b => nover r b /\ Forall mem_dom (r_mem r) /\ Forall ent_dom (r_ent r) /\ INV b
    end.
  Lemma INV_keys s : INV s -> keys_found s /\ keys_unique s.
  Proof. destruct s; simpl; tauto. Qed.
  Definition below (s : storage) : list storage := match s with SDb _ => [] | SCache _ b => layers b end.
  Lemma layers_below s : layers s = s :: below s. Proof. destruct s; auto. Qed.
  Definition kind (s : storage) : bool := match s with SDb _ => true | SCache _ _ => false end.
  Lemma norm_kind s s' v : kind s = kind s' -> norm s v = norm s' v.
  Proof. destruct s, s'; simpl; auto; discriminate. Qed.
  Lemma norm_idem s v : norm s (norm s v) = norm s v. Proof. destruct s; auto. Qed.
  Lemma norm_read s c a v : s_read s c a = Some v -> norm s v = v.
  Proof.
    destruct s; auto. simpl. unfold sdb_read. destruct (lfind _ _ _); [|discriminate]. apply load_no_rc.
  Qed.
  Lemma norm_entry s c a k v : s_entry s c a k = Some v -> norm s v = v.
  Proof.
    destruct s; auto. simpl. unfold sdb_entry. destruct (lfind _ _ _); [|discriminate]. apply load_no_rc.
  Qed.
  Lemma write_step s c a v : INV s -> fits s c a v ->
    exists s', s_write s c a v = Some s' /\ INV s' /\ below s' = below s /\ kind s' = kind s.
  Proof.
    intros I F. destruct (INV_keys s I) as (KF & KU).
    assert (W : exists s', s_write s c a v = Some s').
    { destruct s as [d|r b]; simpl; eauto. destruct F as (_ & _ & _ & NK & _). simpl in NK. unfold ram_write.
      destruct (ram_read r c a) as [o|]; eauto. destruct (f_key (sv_fl o)) eqn:E; eauto. exfalso. now apply (NK o). }
    destruct W as (s' & W). exists s'. split; auto.
    pose proof (write_keys _ _ _ _ _ W F KF) as KF'. pose proof (write_unique _ _ _ _ _ W F KU) as KU'.
    destruct s as [d|r b]; simpl in W.
    - injection W as <-. simpl. auto.
    - destruct (ram_write r c a v) as [r'|] eqn:E; [|discriminate]. injection W as <-.
      destruct I as (_ & _ & NO & MD & ED & IB). destruct F as (Uc & A & OK & NK & KV).
      destruct (ram_write_other _ _ _ _ _ E) as (EE & _ & _).
      split; [|split; reflexivity]. split; [exact KF'|]. split; [exact KU'|]. split; [|split; [|split; [|exact IB]]].
      + intros c' a' v' k R R2. rewrite (ram_write_read _ _ _ _ _ E) in R.
        destruct (addr_eqb_spec c' c) as [->|NC]; simpl in R; [|eauto].
        destruct (N.eqb_spec a' a) as [->|NA]; [|eauto]. simpl in NK.
        destruct (ram_read r c a) as [o|] eqn:RR; [eapply NO; eauto|]. now apply NK.
      + assert (EM : r_mem r' = ((c, a), v) :: r_mem r).
        { revert E. unfold ram_write. destruct (ram_read r c a) as [o|]; [destruct (f_key (sv_fl o)); [discriminate|]|]; intros [= <-]; auto. }
        rewrite EM. constructor; auto. unfold mem_dom. simpl. split; auto. split; auto. split; auto. intros K. now apply KV.
      + now rewrite EE.
  Qed.
  Lemma keys_found_ext s s' : (forall c a, s_read s' c a = s_read s c a) -> (forall c w, s_lookup s' c w = s_lookup s c w) ->
    keys_found s -> keys_found s'.
  Proof.
    intros E1 E2 H c v Uc OK NA. rewrite E2. destruct (H c v Uc OK NA) as (H1 & H2). split.
    - intros NZ. destruct (H1 NZ) as (LB & k & R & K). split; auto. exists k. now rewrite E1.
    - intros a k Ha R. rewrite E1 in R. eauto.
  Qed.
  Lemma keys_unique_ext s s' : (forall c a, s_read s' c a = s_read s c a) -> keys_unique s -> keys_unique s'.
  Proof. intros E1 H c a a' k k' Uc A A' R R'. rewrite E1 in R, R'. eapply H; eauto. Qed.
  Lemma entry_step s c a k v : INV s -> ent_dom ((c, (a, k)), v) ->
    let s' := s_write_entry s c a k v in INV s' /\ below s' = below s /\ kind s' = kind s.
  Proof.
    intros I D. destruct (INV_keys s I) as (KF & KU). destruct (entry_same s c a k v) as (E1 & E2 & _). cbv zeta.
    pose proof (keys_found_ext _ _ E1 E2 KF) as KF'. pose proof (keys_unique_ext _ _ E1 KU) as KU'.
    destruct s as [d|r b]; simpl in *; [tauto|]. destruct I as (_ & _ & NO & MD & ED & IB).
    split; [|split; reflexivity]. repeat (split; [solve [auto]|]). auto.
  Qed.
  Lemma balance_step s c cur n : INV s -> let s' := s_set_balance s c cur n in INV s' /\ below s' = below s /\ kind s' = kind s.
  Proof.
    intros I. destruct (INV_keys s I) as (KF & KU). destruct (balance_same s c cur n) as (E1 & E2 & _). cbv zeta.
    pose proof (keys_found_ext _ _ E1 E2 KF) as KF'. pose proof (keys_unique_ext _ _ E1 KU) as KU'.
    destruct s as [d|r b]; simpl in *; tauto.
  Qed.
  Lemma get_step c cur s : INV s -> INV (snd (s_get_balance s c cur)).
  Proof.
    induction s as [d|r b IH]; intros I; [exact I|]. destruct (INV_keys _ I) as (KF & KU).
    destruct (get_same c cur (SCache r b)) as (E1 & E2 & _).
    pose proof (keys_found_ext _ _ E1 E2 KF) as KF'. pose proof (keys_unique_ext _ _ E1 KU) as KU'.
    destruct I as (_ & _ & NO & MD & ED & IB). specialize (IH IB). destruct (get_same c cur b) as (B1 & _).
    simpl in *. destruct (ram_balance r c cur) as [n|] eqn:RB; [simpl; tauto|].
    destruct (s_get_balance b c cur) as (n, b') eqn:E. simpl in *.
    split; [exact KF'|]. split; [exact KU'|]. split; [|destruct n; simpl; tauto].
    intros c' a' v k R R2. rewrite B1 in R2. eapply NO; eauto. destruct n; exact R.
  Qed.
  Lemma get_layers c cur s : Forall2 (fun s' s => (forall c' a', s_read s' c' a' = s_read s c' a') /\
      (forall c' w, s_lookup s' c' w = s_lookup s c' w) /\ (forall c' a' k', s_entry s' c' a' k' = s_entry s c' a' k') /\
      (forall c' cur', s_bal s' c' cur' = s_bal s c' cur')) (layers (snd (s_get_balance s c cur))) (layers s).
  Proof.
    induction s as [d|r b IH].
    - constructor; [|constructor]. apply (get_same c cur (SDb d)).
    - pose proof (get_same c cur (SCache r b)) as G. simpl in *.
      assert (REFL : Forall2 (fun s' s => (forall c' a', s_read s' c' a' = s_read s c' a') /\
        (forall c' w, s_lookup s' c' w = s_lookup s c' w) /\ (forall c' a' k', s_entry s' c' a' k' = s_entry s c' a' k') /\
        (forall c' cur', s_bal s' c' cur' = s_bal s c' cur')) (layers b) (layers b)).
      { clear. induction (layers b); constructor; auto. }
      destruct (ram_balance r c cur) as [n|]; [constructor; auto|]. destruct (s_get_balance b c cur) as (n, b'). constructor; auto.
  Qed.

  (** ** Commit *)
  Lemma write_all_step l : forall b, INV b -> NoDup (map fst l) -> Forall mem_dom l ->
    (forall c a v k, In ((c, a), v) l -> s_read b c a = Some k -> ~ is_key k) ->
    (forall c a a' k k', U c -> a < 2 ^ 64 -> a' < 2 ^ 64 ->
       (match lfind mem_eqb (c, a) l with Some v => Some (norm b v) | None => s_read b c a end) = Some k ->
       (match lfind mem_eqb (c, a') l with Some v => Some (norm b v) | None => s_read b c a' end) = Some k' ->
       is_key k -> is_key k' -> sv_val k = sv_val k' -> a = a') ->
    exists b', write_all l b = Some b' /\ INV b' /\ below b' = below b /\ kind b' = kind b /\
      (forall c a, U c -> a < 2 ^ 64 ->
         s_read b' c a = match lfind mem_eqb (c, a) l with Some v => Some (norm b v) | None => s_read b c a end) /\
      (forall c a k, s_entry b' c a k = s_entry b c a k) /\ (forall c cur, s_bal b' c cur = s_bal b c cur).
  Proof.
    induction l as [|((c0, a0), v0) l IH]; intros b I ND MD NO UN.
    - exists b. simpl. repeat (split; [solve [auto]|]). auto.
    - cbn [map fst] in ND. inversion ND as [|? ? NI ND']; subst. inversion MD as [|? ? (D1 & D2 & D3 & D4) MD']; subst.
      cbn [fst snd] in D1, D2, D3, D4.
      assert (NF : forall c a, In (c, a) (map fst l) -> (c, a) <> (c0, a0)) by (intros c a H [= -> ->]; auto).
      assert (F : fits b c0 a0 v0).
      { split; [exact D1|]. split; [exact D2|]. split; [exact D3|]. split.
        - intros k R. eapply NO; eauto. left. reflexivity.
        - intros K. split; [auto|]. intros a' k A' R K' E.
          apply (UN c0 a' a0 k (norm b v0)); auto.
          + apply D2.
          + rewrite lfind_cons. destruct (mem_eqb_spec (c0, a') (c0, a0)) as [[= ->]|NE].
            { exfalso. eapply NO; eauto. left. reflexivity. }
            destruct (lfind mem_eqb (c0, a') l) as [v|] eqn:L; auto. exfalso. apply lfind_in in L; [|apply mem_eqb_spec].
            eapply NO; eauto. right. exact L.
          + rewrite lfind_cons. destruct (mem_eqb_spec (c0, a0) (c0, a0)); congruence.
          + now apply norm_key.
          + rewrite E. symmetry. apply norm_key. }
      destruct (write_step b c0 a0 v0 I F) as (b1 & W & I1 & BL1 & KD1).
      assert (A0 : a0 < 2 ^ 64) by apply D2.
      assert (WR : forall c a, U c -> a < 2 ^ 64 -> s_read b1 c a = if addr_eqb c c0 && (a =? a0) then Some (norm b v0) else s_read b c a)
        by (intros; eapply write_read; eauto).
      destruct (IH b1) as (b' & W' & I' & BL' & KD' & R' & E' & B'); auto.
      + intros c a v k H R. assert (D : mem_dom ((c, a), v)) by (rewrite Forall_forall in MD'; auto).
        destruct D as (U1 & A1 & _). simpl in U1, A1. rewrite WR in R by (auto; apply A1).
        assert (NE : (c, a) <> (c0, a0)) by (apply NF; apply (in_map fst) in H; exact H).
        destruct (addr_eqb_spec c c0) as [->|]; simpl in R; [destruct (N.eqb_spec a a0); [congruence|]|]; (eapply NO; [right; exact H|exact R]).
      + assert (SAME : forall c a, U c -> a < 2 ^ 64 -> match lfind mem_eqb (c, a) l with Some v => Some (norm b1 v) | None => s_read b1 c a end
            = match lfind mem_eqb (c, a) (((c0, a0), v0) :: l) with Some v => Some (norm b v) | None => s_read b c a end).
        { intros c a Uc A. rewrite lfind_cons, WR by auto. unfold mem_eqb at 2. cbn [fst snd].
          destruct (addr_eqb c c0 && (a =? a0)) eqn:E.
          - apply andb_prop in E. destruct E as (E1 & E2). apply N.eqb_eq in E2. destruct (addr_eqb_spec c c0); [subst|discriminate].
            rewrite lfind_out; auto. apply mem_eqb_spec.
          - destruct (lfind mem_eqb (c, a) l); auto. f_equal. now apply norm_kind. }
        intros c a a' k k' Uc A A' R R2. rewrite SAME in R, R2 by auto. eapply UN; eauto.
      + exists b'. split; [simpl; now rewrite W|]. split; [exact I'|]. split; [congruence|]. split; [congruence|]. split; [|split].
        * intros c a Uc A. rewrite R' by auto. rewrite lfind_cons, WR by auto. unfold mem_eqb at 2. cbn [fst snd].
          destruct (addr_eqb c c0 && (a =? a0)) eqn:E.
          -- apply andb_prop in E. destruct E as (E1 & E2). apply N.eqb_eq in E2. destruct (addr_eqb_spec c c0); [subst|discriminate].
             rewrite lfind_out; auto. apply mem_eqb_spec.
          -- destruct (lfind mem_eqb (c, a) l); auto. f_equal. now apply norm_kind.
        * intros. rewrite E'. eapply write_entry_same; eauto.
        * intros. rewrite B'. eapply write_bal_same; eauto.
  Qed.
  Lemma write_entries_step l : forall b, INV b -> NoDup (map fst l) -> Forall ent_dom l ->
    let b' := write_entries l b in INV b' /\ below b' = below b /\ kind b' = kind b /\
      (forall c a, s_read b' c a = s_read b c a) /\ (forall c cur, s_bal b' c cur = s_bal b c cur) /\
      (forall c a k, U c -> a < 2 ^ 64 -> k < 2 ^ 64 ->
         s_entry b' c a k = match lfind ent_eqb (c, (a, k)) l with Some v => Some (norm b v) | None => s_entry b c a k end).
  Proof.
    induction l as [|((c0, (a0, k0)), v0) l IH]; intros b I ND ED; cbv zeta.
    - simpl. repeat (split; [solve [auto]|]). auto.
    - cbn [map fst] in ND. inversion ND as [|? ? NI ND']; subst. inversion ED as [|? ? D0 ED']; subst.
      destruct (entry_step b c0 a0 k0 v0 I D0) as (I1 & BL1 & KD1). destruct (entry_same b c0 a0 k0 v0) as (S1 & _ & S3).
      unfold write_entries. cbn [fold_left fst snd]. change (fold_left _ l ?x) with (write_entries l x).
      set (b1 := s_write_entry b c0 a0 k0 v0) in *.
      destruct (IH b1 I1 ND' ED') as (I' & BL' & KD' & R' & B' & E').
      split; [exact I'|]. split; [congruence|]. split; [congruence|]. split; [intros; now rewrite R', S1|].
      split; [intros; now rewrite B', S3|]. intros c a k Uc A K. rewrite E' by auto. rewrite lfind_cons. unfold ent_eqb at 2. cbn [fst snd].
      destruct D0 as (D1 & D2 & D3 & D4). cbn [fst snd] in *. unfold b1 at 2. rewrite entry_read by auto.
      destruct (addr_eqb c c0 && (a =? a0) && (k =? k0)) eqn:E.
      + apply andb_prop in E. destruct E as (E & E3). apply andb_prop in E. destruct E as (E1 & E2). apply N.eqb_eq in E2, E3.
        destruct (addr_eqb_spec c c0); [subst|discriminate]. rewrite lfind_out; auto. apply ent_eqb_spec.
      + destruct (lfind ent_eqb (c, (a, k)) l); auto. f_equal. now apply norm_kind.
  Qed.
  Lemma set_balances_step l : forall b, INV b -> NoDup (map fst l) ->
    let b' := set_balances l b in INV b' /\ below b' = below b /\ kind b' = kind b /\
      (forall c a, s_read b' c a = s_read b c a) /\ (forall c a k, s_entry b' c a k = s_entry b c a k) /\
      (forall c cur, s_bal b' c cur = if kind b then s_bal b c cur else match lfind bal_eqb (c, cur) l with Some n => Some n | None => s_bal b c cur end).
  Proof.
    induction l as [|((c0, cur0), n0) l IH]; intros b I ND; cbv zeta.
    - simpl. repeat (split; [solve [auto]|]). intros. now destruct (kind b).
    - cbn [map fst] in ND. inversion ND as [|? ? NI ND']; subst.
      destruct (balance_step b c0 cur0 n0 I) as (I1 & BL1 & KD1). destruct (balance_same b c0 cur0 n0) as (S1 & _ & S3).
      unfold set_balances. cbn [fold_left fst snd]. change (fold_left _ l ?x) with (set_balances l x).
      set (b1 := s_set_balance b c0 cur0 n0) in *.
      destruct (IH b1 I1 ND') as (I' & BL' & KD' & R' & E' & B').
      split; [exact I'|]. split; [congruence|]. split; [congruence|]. split; [intros; now rewrite R', S1|].
      split; [intros; now rewrite E', S3|]. intros c cur. rewrite B', KD1. destruct b as [d|r b]; [reflexivity|].
      cbn [kind]. rewrite lfind_cons. unfold bal_eqb at 2. cbn [fst snd]. unfold b1. rewrite balance_read.
      destruct (addr_eqb c c0 && addr_eqb cur cur0) eqn:E; auto.
      apply andb_prop in E. destruct E as (E1 & E2).
      destruct (addr_eqb_spec c c0); [subst|discriminate]. destruct (addr_eqb_spec cur cur0); [subst|discriminate].
      rewrite lfind_out; auto. apply bal_eqb_spec.
  Qed.
  Lemma commit_step r b : INV (SCache r b) ->
    exists b', commit_into r b = Some b' /\ INV b' /\ below b' = below b /\ kind b' = kind b /\
      (forall c a, U c -> a < 2 ^ 64 -> s_read b' c a = option_map (norm b) (s_read (SCache r b) c a)) /\
      (forall c a k, U c -> a < 2 ^ 64 -> k < 2 ^ 64 -> s_entry b' c a k = option_map (norm b) (s_entry (SCache r b) c a k)) /\
      (forall c cur, s_bal b' c cur = if kind b then s_bal b c cur else s_bal (SCache r b) c cur).
  Proof.
    intros (KF & KU & NO & MD & ED & IB).
    assert (FM : forall k, lfind mem_eqb k (items mem_cmp (r_mem r)) = lfind mem_eqb k (r_mem r))
      by (intros; apply items_find; [apply mem_cmp_total|apply mem_eqb_spec]).
    assert (RD : forall c a, (match lfind mem_eqb (c, a) (items mem_cmp (r_mem r)) with Some v => Some (norm b v) | None => s_read b c a end)
        = option_map (norm b) (s_read (SCache r b) c a)).
    { intros c a. rewrite FM. simpl. change (lfind mem_eqb (c, a) (r_mem r)) with (ram_read r c a).
      destruct (ram_read r c a); auto. destruct (s_read b c a) eqn:E; auto. simpl. f_equal. symmetry. eapply norm_read; eauto. }
    destruct (write_all_step (items mem_cmp (r_mem r)) b) as (b1 & W1 & I1 & BL1 & KD1 & R1 & E1 & B1); auto.
    - apply items_nodup. apply mem_cmp_total.
    - apply Forall_forall. intros ((c, a), v) H. rewrite Forall_forall in MD. apply MD.
      eapply items_in; eauto; [apply mem_cmp_total|apply mem_eqb_spec].
    - intros c a v k H R. apply (NO c a v k); auto. unfold ram_read. rewrite <- FM.
      apply lfind_nodup; auto; [apply mem_eqb_spec|apply items_nodup; apply mem_cmp_total].
    - intros c a a' k k' Uc A A' R R2 K K' E. rewrite RD in R, R2.
      destruct (s_read (SCache r b) c a) as [k1|] eqn:Q1; [|discriminate].
      destruct (s_read (SCache r b) c a') as [k2|] eqn:Q2; [|discriminate]. simpl in R, R2.
      apply (KU c a a' k1 k2); auto.
      + apply (norm_key b k1). injection R as R; rewrite R; exact K.
      + apply (norm_key b k2). injection R2 as R2; rewrite R2; exact K'.
      + rewrite <- (proj2 (norm_key b k1)), <- (proj2 (norm_key b k2)). congruence.
    - assert (ND2 : NoDup (map fst (items ent_cmp (r_ent r)))) by (apply items_nodup; apply ent_cmp_total).
      assert (ED2 : Forall ent_dom (items ent_cmp (r_ent r))).
      { apply Forall_forall. intros (q, v) H. rewrite Forall_forall in ED. apply ED.
        eapply items_in; eauto; [apply ent_cmp_total|apply ent_eqb_spec]. }
      destruct (write_entries_step _ b1 I1 ND2 ED2) as (I2 & BL2 & KD2 & R2 & B2 & E2).
      assert (ND3 : NoDup (map fst (items bal_cmp (r_bal r)))) by (apply items_nodup; apply bal_cmp_total).
      destruct (set_balances_step _ _ I2 ND3) as (I3 & BL3 & KD3 & R3 & E3 & B3).
      eexists. split; [unfold commit_into; rewrite W1; reflexivity|]. split; [exact I3|]. split; [congruence|]. split; [congruence|].
      split; [|split].
      + intros c a Uc A. rewrite R3, R2, R1 by auto. apply RD.
      + intros c a k Uc A K. rewrite E3, E2, E1 by auto. rewrite items_find by (try apply ent_cmp_total; apply ent_eqb_spec).
        simpl. change (lfind ent_eqb (c, (a, k)) (r_ent r)) with (ram_read_entry r c a k).
        destruct (ram_read_entry r c a k); simpl; [f_equal; now apply norm_kind|].
        destruct (s_entry b c a k) eqn:E; auto. simpl. f_equal. symmetry. eapply norm_entry; eauto.
      + intros c cur. rewrite B3, KD2, KD1. destruct (kind b) eqn:KB.
        * now rewrite B2, B1.
        * rewrite items_find by (try apply bal_cmp_total; apply bal_eqb_spec). rewrite B2, B1, s_bal_cache. reflexivity.
  Qed.

  (** ** The stack of snapshots *)
  Definition sees (s : storage) (w : view) : Prop :=
    (forall c a, U c -> a < 2 ^ 64 -> s_read s c a = vw_read w c a)
    /\ (forall c a k, U c -> a < 2 ^ 64 -> k < 2 ^ 64 -> s_entry s c a k = vw_entry w c a k)
    /\ (forall c cur, s_bal s c cur = vw_balance w c cur).
  Definition SIM (s : storage) (ws : list view) : Prop := INV s /\ Forall2 sees (layers s) ws.
  Lemma sees_shows s w : keys_found s -> sees s w -> shows U s w.
  Proof.
    intros KF (S1 & S2 & S3). split; [exact S1|]. split; [exact S2|]. split; [exact S3|].
    intros c v Uc OK NA. destruct (KF c v Uc OK NA) as (K1 & K2). unfold key_address.
    destruct (N.eq_dec (s_lookup s c v) 0) as [Z|NZ].
    - left. split; auto. intros a' k A' R K E. rewrite <- S1 in R by auto. destruct (K2 a' k A' R K E). lia.
    - right. split; [lia|]. destruct (K1 NZ) as (LB & k & R & K & E). exists k. rewrite <- S1; auto.
  Qed.
  Lemma INV_layers s : INV s -> Forall INV (layers s).
  Proof. induction s as [d|r b IH]; cbn [layers]; [intros I; constructor; [exact I|constructor]|]. intros I. constructor; [exact I|]. apply IH. apply I. Qed.
  Lemma SIM_shows s ws : SIM s ws -> Forall2 (shows U) (layers s) ws.
  Proof.
    intros (I & F). apply INV_layers in I. induction F as [|x w l ws S F IH]; constructor.
    - inversion I; subst. apply sees_shows; auto. now apply INV_keys.
    - inversion I; subst. auto.
  Qed.
  Lemma layers_len s : (length (layers s) = 1 <-> kind s = true)%nat.
  Proof. destruct s as [d|r [d|r' b]]; simpl; split; auto; discriminate. Qed.
  (** a change of the top layer *)
  Lemma SIM_top s s' ws f : SIM s ws -> INV s' -> below s' = below s -> kind s' = kind s ->
    (forall c a, U c -> a < 2 ^ 64 -> forall w, sees s w -> s_read s' c a = option_map (norm s) (vw_read (f w) c a)) ->
    (forall c a k, U c -> a < 2 ^ 64 -> k < 2 ^ 64 -> forall w, sees s w -> s_entry s' c a k = option_map (norm s) (vw_entry (f w) c a k)) ->
    (forall c cur w, sees s w -> s_bal s' c cur = if kind s then s_bal s c cur else vw_balance (f w) c cur) ->
    SIM s' (on_top f ws).
  Proof.
    intros (I & F) I' BL KD R E B. split; auto. rewrite layers_below in *. rewrite BL.
    inversion F as [|? w ? ws' S F']; subst. assert (S0 := S). destruct S0 as (S1 & S2 & S3).
    destruct s as [d|r b].
    - simpl in F'. inversion F'; subst. simpl. constructor; [|constructor]. split; [|split]; simpl.
      + intros. eapply R; eauto.
      + intros. eapply E; eauto.
      + intros. rewrite (B _ _ w) by auto. apply S3.
    - destruct ws' as [|w2 ws']; [simpl in F'; rewrite layers_below in F'; inversion F'|].
      simpl on_top. constructor; auto. split; [|split].
      + intros. rewrite (R _ _) with (w := w); auto. simpl. destruct (vw_read (f w) c a); auto.
      + intros. rewrite (E _ _ _) with (w := w); auto. simpl. destruct (vw_entry (f w) c a k); auto.
      + intros. rewrite (B _ _ w) by auto. reflexivity.
  Qed.
  Lemma step s ws o : SIM s ws -> legal U ws o -> exists s', s_do o s = Some s' /\ SIM s' (sp_do o ws).
  Proof.
    intros SM L. destruct (SM) as (I & F). destruct o as [c a v|c a k v|c cur n|c cur| | |]; cbn [s_do].
    - destruct L as (Uc & A & OK & NK & KV).
      assert (HD : exists w, hd_error ws = Some w /\ sees s w).
      { rewrite layers_below in F. inversion F; subst. simpl. eauto. }
      destruct HD as (w & HW & S). assert (S0 := S). destruct S0 as (S1 & S2 & S3). assert (A2 : a < 2 ^ 64) by apply A.
      assert (FT : fits s c a v).
      { split; [exact Uc|]. split; [exact A|]. split; [exact OK|]. split.
        - intros k R. rewrite S1 in R by auto. eauto.
        - intros K. destruct (KV K) as (NA & KX). split; auto. intros a' k A' R K' E. rewrite S1 in R by auto.
          eapply KX; eauto. rewrite E. destruct (sv_val v); simpl in *; auto. }
      destruct (write_step s c a v I FT) as (s' & W & I' & BL & KD). exists s'. split; auto.
      apply (SIM_top s); auto.
      + intros c' a' Uc' A' w' (T1 & _). rewrite (write_read _ _ _ _ _ _ _ W) by auto. simpl.
        destruct (addr_eqb c' c && (a' =? a)); auto. rewrite <- T1 by auto. destruct (s_read s c' a') eqn:E; auto. simpl. f_equal.
        symmetry. eapply norm_read; eauto.
      + intros c' a' k' Uc' A' K' w' (_ & T2 & _). rewrite (write_entry_same _ _ _ _ _ _ _ _ W). simpl. rewrite <- T2 by auto.
        destruct (s_entry s c' a' k') eqn:E; auto. simpl. f_equal. symmetry. eapply norm_entry; eauto.
      + intros c' cur w' (_ & _ & T3). rewrite (write_bal_same _ _ _ _ _ _ _ W). destruct (kind s); auto. simpl. apply T3.
    - destruct L as (Uc & A & K & OK). eexists. split; [reflexivity|].
      destruct (entry_step s c a k v I) as (I' & BL & KD); [repeat split; auto; apply OK|].
      destruct (entry_same s c a k v) as (E1 & _ & E3). apply (SIM_top s); auto.
      + intros c' a' Uc' A' w' (T1 & _). rewrite E1. simpl. rewrite <- T1 by auto. destruct (s_read s c' a') eqn:E; auto. simpl. f_equal.
        symmetry. eapply norm_read; eauto.
      + intros c' a' k' Uc' A' K' w' (_ & T2 & _). rewrite entry_read by auto. simpl.
        destruct (addr_eqb c' c && (a' =? a) && (k' =? k)); auto. rewrite <- T2 by auto.
        destruct (s_entry s c' a' k') eqn:E; auto. simpl. f_equal. symmetry. eapply norm_entry; eauto.
      + intros c' cur w' (_ & _ & T3). rewrite E3. destruct (kind s); auto. simpl. apply T3.
    - eexists. split; [reflexivity|]. destruct (balance_step s c cur n I) as (I' & BL & KD).
      destruct (balance_same s c cur n) as (E1 & _ & E3). apply (SIM_top s); auto.
      + intros c' a' Uc' A' w' (T1 & _). rewrite E1. simpl. rewrite <- T1 by auto. destruct (s_read s c' a') eqn:E; auto. simpl. f_equal.
        symmetry. eapply norm_read; eauto.
      + intros c' a' k' Uc' A' K' w' (_ & T2 & _). rewrite E3. simpl. rewrite <- T2 by auto.
        destruct (s_entry s c' a' k') eqn:E; auto. simpl. f_equal. symmetry. eapply norm_entry; eauto.
      + intros c' cur' w' (_ & _ & T3). destruct s as [d|r b]; [reflexivity|]. rewrite balance_read. simpl.
        destruct (addr_eqb c' c && addr_eqb cur' cur); auto.
    - eexists. split; [reflexivity|]. split; [now apply get_step|]. pose proof (get_layers c cur s) as G. simpl.
      clear SM L I. revert ws F. induction G as [|x y l l' (G1 & G2 & G3 & G4) G IH]; intros ws F;
        inversion F as [|? ? ? ? (S1 & S2 & S3) F']; subst; constructor.
      + split; [|split]; intros; rewrite ?G1, ?G3, ?G4; auto.
      + now apply IH.
    - eexists. split; [reflexivity|]. destruct (INV_keys s I) as (KF & KU).
      assert (F0 := F). rewrite layers_below in F0. inversion F0 as [|? w ? ws' S F' E1 E2]; subst. simpl sp_do. split.
      + cbn [INV]. split; [|split; [|split; [|split; [|split]]]].
        * apply (keys_found_ext s); auto.
        * apply (keys_unique_ext s); auto.
        * intros c a v k R. discriminate R.
        * constructor.
        * constructor.
        * exact I.
      + constructor; auto. destruct S as (S1 & S2 & S3). split; [|split]; auto.
        intros. rewrite s_bal_cache. apply S3.
    - destruct s as [d|r b].
      { exfalso. inversion F as [|? ? ? ? _ F']; subst. inversion F'; subst. simpl in L. lia. }
      destruct (commit_step r b I) as (b' & W & I' & BL & KD & R & E & B). exists b'. split; auto.
      split; auto. rewrite layers_below, BL. simpl layers in F. inversion F as [|? w ? ws' S F']; subst.
      rewrite layers_below in F'. inversion F' as [|? w2 ? ws2 S' F2]; subst.
      destruct S as (S1 & S2 & S3). destruct S' as (T1 & T2 & T3).
      destruct b as [d|r2 b2].
      + simpl in F2. inversion F2; subst. simpl. constructor; [|constructor]. split; [|split]; simpl.
        * intros. rewrite R by auto. now rewrite S1.
        * intros. rewrite E by auto. now rewrite S2.
        * intros. rewrite B. apply T3.
      + destruct ws2 as [|w3 ws2]; [simpl in F2; rewrite layers_below in F2; inversion F2|].
        simpl sp_do. constructor; auto. split; [|split].
        * intros. rewrite R by auto. rewrite S1 by auto. simpl. destruct (vw_read w c a); auto.
        * intros. rewrite E by auto. rewrite S2 by auto. simpl. destruct (vw_entry w c a k); auto.
        * intros. rewrite B. apply S3.
    - destruct s as [d|r b].
      { exfalso. inversion F as [|? ? ? ? _ F']; subst. inversion F'; subst. simpl in L. lia. }
      exists b. split; auto. inversion F as [|? w ? ws' S F']; subst. destruct I as (_ & _ & _ & _ & _ & IB). split; auto.
      rewrite layers_below in F'. inversion F'; subst. simpl. rewrite layers_below. now constructor.
  Qed.
  Lemma run l : forall s ws, SIM s ws -> legal_run U ws l -> exists s', s_run l s = Some s' /\ SIM s' (sp_run l ws).
  Proof.
    induction l as [|o l IH]; intros s ws SM L; [exists s; auto|]. destruct L as (L1 & L2).
    destruct (step s ws o SM L1) as (s1 & W & SM1). simpl. rewrite W. apply IH; auto.
  Qed.
  Lemma SIM_init bal : SIM (SDb (mk_sdb [] [] [] bal)) [mk_view (fun _ _ => None) (fun _ _ _ => None) bal].
  Proof.
    split.
    - split; [|split; [|exact I]].
      + intros c v _ _ _. split; [intros H; exfalso; apply H; reflexivity|]. intros a k _ H. discriminate H.
      + intros c a a' k k' _ _ _ H. discriminate H.
    - constructor; [|constructor]. split; [|split]; reflexivity.
  Qed.
End U.
