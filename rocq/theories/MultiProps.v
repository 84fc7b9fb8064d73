(** C09: multi-value tables keep every value in insertion order. *)
Require Import List Sorted NArith Lia Bool Arith.
Require Import Verif.OrdLib Verif.BytesLib Verif.DbModel Verif.DbSpec Verif.DbPropsProofs Verif.KeysModel Verif.KeysSpec Verif.KeysProofs
  Verif.MultiModel Verif.MultiSpec Verif.MultiProofs.
Import ListNotations.
Open Scope N_scope.

(** What is proved of each of the classes. Whatever calls are made and wherever the process is killed in between, the
    table goes through the history of [mspec_run], and reading it gives:
    - find(key): all values of the key in insertion order; find_last(key, n): the last n, newest first;
    - scan: all pairs by ascending key, the values of one key in insertion order; find_range(b, e): those with b <= key < e;
      find(key, greater_equal): the values of all keys from key on. *)
Definition multi_correct {K : Type} (V : Type) (kok : K -> Prop) (kc : K -> K -> comparison)
    (write : K * N -> bytes) (read : bytes -> option (K * N)) (imax : N) : Prop :=
  forall (lf : nat) (cs : list (@mcall K V)), Forall (mcall_ok kok) cs ->
  exists s0 s bs a,
    init_sys default_cmp lf = Some s0 /\ m_run kc write read imax lf s0 cs = Some (s, bs) /\ mspec_run kc imax cs a_init bs a /\
    (forall k, kok k -> m_find kc write read (s_tab s) k false = Some (vals kc k a) /\
       forall n, m_find_last kc write read imax (s_tab s) k n = Some (firstn n (rev (vals kc k a)))) /\
    exists l, by_key kc a l /\ m_scan read (s_tab s) = Some l /\
      forall b, kok b ->
        m_find kc write read (s_tab s) b true = Some (map snd (filter (fun x => match kc (fst x) b with Lt => false | _ => true end) l)) /\
        forall e, m_find_range kc write read (s_tab s) b e =
          Some (filter (fun x => match kc (fst x) b with Lt => false | _ => true end && match kc (fst x) e with Lt => true | _ => false end) l).

(** One more insert(key, value) in any such state: the value is appended to what find returned before, or, when the key
    has as many values as the index can count, the call throws; every other key keeps its values. *)
Definition multi_append {K : Type} (V : Type) (kok : K -> Prop) (kc : K -> K -> comparison)
    (write : K * N -> bytes) (read : bytes -> option (K * N)) (imax : N) : Prop :=
  forall (lf : nat) (cs : list (@mcall K V)) s0 s bs k v old, Forall (mcall_ok kok) cs -> kok k ->
  init_sys default_cmp lf = Some s0 -> m_run kc write read imax lf s0 cs = Some (s, bs) ->
  m_find kc write read (s_tab s) k false = Some old ->
  exists s' done, m_insert_many kc write read imax lf s k [v] = Some (s', done) /\
    done = (N.of_nat (length old) <? imax) /\
    m_find kc write read (s_tab s') k false = Some (if done then old ++ [v] else old) /\
    forall k', kok k' -> k' <> k -> m_find kc write read (s_tab s') k' false = m_find kc write read (s_tab s) k' false.

Section Generic.
  Context {K : Type} (kc : K -> K -> comparison) (TK : TotalCmp kc) (kok : K -> Prop)
    (write : K * N -> bytes) (read : bytes -> option (K * N)) (imax : N).
  Hypothesis G : good_key (okp kok imax) (lexcmp kc N.compare) write read.

  Lemma generic_correct (V : Type) : multi_correct V kok kc write read imax.
  Proof.
    intros lf cs F. destruct (@mrel_init K V kc kok write imax lf) as (s0 & E0 & R0).
    destruct (mrel_run kc TK kok write read imax G lf cs s0 a_init R0 F) as (s & bs & a & E & R & S).
    destruct (reading kc TK kok write read imax G s a R) as (l & B & Sc & F1 & F2 & Rg & Lt).
    exists s0, s, bs, a. split; auto. split; auto. split; auto. split; [auto|].
    exists l. split; auto. split; auto. intros b Hb. split; [apply (F2 b Hb)|]. intros e. apply (Rg b e Hb).
  Qed.

  Lemma vals_same {V : Type} k (v : V) c ws : vals kc k (a_insert k v (mk_spec c ws)) = vals kc k (mk_spec c ws) ++ [v].
  Proof.
    etransitivity; [apply (vals_snoc kc k c ws ((k, c), v))|]. unfold wkey; simpl. rewrite (proj2 (keq kc TK k k) eq_refl). auto.
  Qed.
  Lemma vals_other {V : Type} k k' (v : V) c ws : k' <> k -> vals kc k' (a_insert k v (mk_spec c ws)) = vals kc k' (mk_spec c ws).
  Proof.
    intros H. etransitivity; [apply (vals_snoc kc k' c ws ((k, c), v))|]. unfold wkey; simpl.
    rewrite (proj2 (kneq kc TK k k')) by auto. apply app_nil_r.
  Qed.

  Lemma generic_append (V : Type) : multi_append V kok kc write read imax.
  Proof.
    intros lf cs s0 s bs k v old F Hk E0 E Eo. destruct (@mrel_init K V kc kok write imax lf) as (s0' & E0' & R0).
    rewrite E0 in E0'. injection E0' as <-.
    destruct (mrel_run kc TK kok write read imax G lf cs s0 a_init R0 F) as (s1 & bs1 & a & E1 & R & _).
    rewrite E in E1. injection E1 as <- <-.
    destruct (reading kc TK kok write read imax G s a R) as (_ & _ & _ & F1 & _).
    rewrite (F1 k Hk) in Eo. injection Eo as <-. unfold m_insert_many. rewrite (m_index_ok kc TK kok write read imax G s a k R Hk).
    destruct (insert_from_ok kc TK kok write imax lf k Hk [v] s a R) as (s' & b & E' & R' & Hb).
    exists s', b. split; auto. pose proof (vals_bound kc kok write imax s a k R) as B.
    destruct (reading kc TK kok write read imax G s' _ R') as (_ & _ & _ & F1' & _).
    assert (X : b = (N.of_nat (length (vals kc k a)) <? imax)).
    { destruct (N.ltb_spec (N.of_nat (length (vals kc k a))) imax) as [H|H].
      - apply Hb. unfold room. simpl. lia.
      - destruct b; auto. assert (Y : (1 <= room kc imax k a)%nat) by (apply Hb; auto). unfold room in Y. lia. }
    split; auto. rewrite F1' by auto. destruct a as [c ws]. split.
    - f_equal. destruct (N.ltb_spec (N.of_nat (length (vals kc k (mk_spec c ws)))) imax) as [H|H]; subst b.
      + assert (Y : room kc imax k (mk_spec c ws) = S (pred (room kc imax k (mk_spec c ws)))) by (unfold room; lia). rewrite Y.
        cbn [firstn add_all fold_left]. rewrite firstn_nil. cbn [add_all fold_left]. exact (vals_same k v c ws).
      + assert (Y : room kc imax k (mk_spec c ws) = 0%nat) by (unfold room; lia). rewrite Y. auto.
    - intros k' Hk' Hn. rewrite F1', F1 by auto. f_equal. destruct (room kc imax k (mk_spec c ws)) as [|r]; auto.
      cbn [firstn add_all fold_left]. rewrite firstn_nil. cbn [add_all fold_left]. exact (vals_other k k' v c ws Hn).
  Qed.
End Generic.

Definition u32 : N := 4294967295.

Lemma u32_ok x : uint_ok 4 x <-> x <= u32.
Proof. unfold uint_ok, u32. change (256 ^ N.of_nat 4) with 4294967296. lia. Qed.

Lemma good_ext {K : Type} (ok ok' : K -> Prop) c w r : (forall k, ok k <-> ok' k) -> good_key ok c w r -> good_key ok' c w r.
Proof.
  intros H [A B C D E]. split; intros.
  - apply A, H; auto.
  - apply B, H; auto.
  - apply C; auto; apply H; auto.
  - apply D; apply H; auto.
  - destruct (E e k) as (X & Y); auto. split; auto. apply H; auto.
Qed.

(** uint_multi_table<K, V> (include/mmx/multi_table.h:188-206), keys of [w] bytes (height_index: 4), 32 bit index *)
Theorem C09_uint : forall (V : Type) (w : nat),
  multi_correct V (uint_ok w) N.compare (uint_uint_write w 4) (uint_uint_read w 4) u32 /\
  multi_append V (uint_ok w) N.compare (uint_uint_write w 4) (uint_uint_read w 4) u32.
Proof.
  intros V w.
  assert (G : good_key (okp (uint_ok w) u32) (lexcmp N.compare N.compare) (uint_uint_write w 4) (uint_uint_read w 4)).
  { eapply good_ext; [|apply uint_uint_good]. intros (k, i). unfold okp. simpl. rewrite u32_ok. tauto. }
  split; [apply generic_correct|apply generic_append]; auto; apply Ncompare_total.
Qed.

(** hash_multi_table<K, V> (209-227), keys of [n] bytes (tx_log: addresses of 32), 32 bit index *)
Theorem C09_hash : forall (V : Type) (n : nat),
  multi_correct V (hash_ok n) bytescmp (hash_uint_write 4) (hash_uint_read n 4) u32 /\
  multi_append V (hash_ok n) bytescmp (hash_uint_write 4) (hash_uint_read n 4) u32.
Proof.
  intros V n.
  assert (G : good_key (okp (hash_ok n) u32) (lexcmp bytescmp N.compare) (hash_uint_write 4) (hash_uint_read n 4)).
  { eapply good_ext; [|apply hash_uint_good]. intros (k, i). unfold okp. simpl. rewrite u32_ok. tauto. }
  split; [apply generic_correct|apply generic_append]; auto; apply bytescmp_total.
Qed.

(** hash_uint_multi_table<K, H, V> (230-249): pairs of a hash and an integer, 32 bit index *)
Theorem C09_hash_uint : forall (V : Type) (n w : nat),
  let kok := fun k => hash_ok n (fst k) /\ uint_ok w (snd k) in
  multi_correct V kok (lexcmp bytescmp N.compare) (hash_uint_uint_write w 4) (hash_uint_uint_read n w 4) u32 /\
  multi_append V kok (lexcmp bytescmp N.compare) (hash_uint_uint_write w 4) (hash_uint_uint_read n w 4) u32.
Proof.
  intros V n w kok.
  assert (G : good_key (okp kok u32) (lexcmp (lexcmp bytescmp N.compare) N.compare) (hash_uint_uint_write w 4) (hash_uint_uint_read n w 4)).
  { eapply good_ext; [|apply hash_uint_uint_good]. intros (k, i). unfold okp, kok. simpl. rewrite u32_ok. tauto. }
  split; [apply generic_correct|apply generic_append]; auto; apply lexcmp_total; try apply bytescmp_total; apply Ncompare_total.
Qed.
Print Assumptions C09_uint.
Print Assumptions C09_hash.
Print Assumptions C09_hash_uint.

(** a history: values of key 7 in a block, in memory, after a revert and a restart; keys 6 and 8 beside it *)
Definition case09 : list (@mcall N N) :=
  [MInsert 7 [10; 11]; MInsert 6 [5]; MCommit 1 true; MInsert 7 [12]; MInsert 8 [9]; MInsert 7 [11]; MCommit 2 false; MInsert 7 [13]; MRevert 2; MInsert 7 [14]; MCommit 3 false; MInsert 8 [1];
   MRestart 0 []].
Example C09_case_ok : Forall (mcall_ok (uint_ok 4)) case09.
Proof. repeat constructor; vm_compute; congruence. Qed.
Definition run09 (imax : N) (cs : list (@mcall N N)) :=
  match init_sys default_cmp 100 with
  | None => None
  | Some s0 => m_run N.compare (uint_uint_write 4 4) (uint_uint_read 4 4) imax 100 s0 cs
  end.
Example C09_case : match run09 u32 case09 with
  | Some (s, bs) => (m_find N.compare (uint_uint_write 4 4) (uint_uint_read 4 4) (s_tab s) 7 false,
                     m_find_last N.compare (uint_uint_write 4 4) (uint_uint_read 4 4) u32 (s_tab s) 7 2,
                     m_scan (uint_uint_read 4 4) (s_tab s))
  | None => (None, None, None)
  end = (Some [10; 11; 12; 11; 14], Some [14; 11], Some [(6, 5); (7, 10); (7, 11); (7, 12); (7, 11); (7, 14); (8, 9)]).
Proof. vm_compute. reflexivity. Qed.
(** with an index that counts to 3, the fourth value of a key is refused *)
Example C09_case_full : match run09 3 [MInsert 7 [10; 11]; MInsert 7 [12; 13]; MInsert 8 [1]; MInsert 7 [14]] with
  | Some (s, bs) => (bs, m_find N.compare (uint_uint_write 4 4) (uint_uint_read 4 4) (s_tab s) 7 false)
  | None => ([], None)
  end = ([true; false; true; false], Some [10; 11; 12]).
Proof. vm_compute. reflexivity. Qed.
