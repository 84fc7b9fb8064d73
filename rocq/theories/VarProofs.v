Require Import List Arith NArith ZArith Lia Bool.
From Verif Require Import BytesLib BitsLib VarModel VarSpec.
Import ListNotations.
Open Scope N_scope.

(** reading memory *)
Lemma peek_length : forall d o n, length (peek d o n) = n.
Proof. intros. unfold peek. now rewrite map_length, seq_length. Qed.
Lemma peek_ext : forall d e o n, (forall i, (o <= i < o + n)%nat -> d i = e i) -> peek d o n = peek e o n.
Proof. intros. unfold peek. apply map_ext_in. intros i Hi. apply in_seq in Hi. apply H. lia. Qed.
Lemma peek_buffer : forall a b c j, peek (buffer (a ++ b ++ c) j) (length a) (length b) = b.
Proof.
  intros. apply (nth_ext _ _ 0 0); [now rewrite peek_length|]. rewrite peek_length. intros i Hi.
  unfold peek. rewrite (nth_indep _ 0 (buffer (a ++ b ++ c) j 0%nat)) by (rewrite map_length, seq_length; exact Hi).
  rewrite map_nth, seq_nth by exact Hi. unfold buffer.
  replace (length a + i <? length (a ++ b ++ c))%nat with true by (symmetry; apply Nat.ltb_lt; rewrite !app_length; lia).
  rewrite app_nth2_plus, app_nth1 by exact Hi. reflexivity.
Qed.
Lemma peek_buffer' : forall a b c j o n, o = length a -> n = length b -> peek (buffer (a ++ b ++ c) j) o n = b.
Proof. intros. subst. apply peek_buffer. Qed.
Lemma peek_buffer0 : forall b c j n, n = length b -> peek (buffer (b ++ c) j) 0 n = b.
Proof. intros. exact (peek_buffer' [] b c j 0%nat n eq_refl H). Qed.
Lemma at_buffer : forall a x c j o, o = length a -> buffer (a ++ x :: c) j o = x.
Proof.
  intros. subst. unfold buffer. replace (length a <? length (a ++ x :: c))%nat with true
    by (symmetry; apply Nat.ltb_lt; rewrite app_length; simpl; lia).
  rewrite app_nth2, Nat.sub_diag by lia. reflexivity.
Qed.

Lemma ltb_room : forall n m, (m <= n)%nat -> (n <? m)%nat = false.
Proof. intros. now apply Nat.ltb_ge. Qed.

Lemma shiftr_zero : forall x n, (N.shiftr x n =? 0) = (x <? 2 ^ n).
Proof.
  intros. rewrite N.shiftr_div_pow2. destruct (N.ltb_spec x (2 ^ n)).
  - now rewrite N.div_small.
  - apply N.eqb_neq. intros E. apply N.div_small_iff in E; [lia|]. apply N.pow_nonzero. discriminate.
Qed.

Lemma put_uint_cases : forall x, x < 2 ^ 256 -> exists w, shortest x w /\ snd (put_uint x) = le_bytes w x
  /\ uint_size (fst (put_uint x)) = w /\ In (fst (put_uint x)) [9; 10; 11; 12; 13].
Proof.
  intros x Hx. unfold put_uint. rewrite !shiftr_zero.
  assert (P : forall w, In w widths -> 256 ^ N.of_nat w = 2 ^ (8 * N.of_nat w)).
  { intros w _. change 256 with (2 ^ 8). now rewrite N.pow_mul_r. }
  assert (S : forall w, In w widths -> x < 256 ^ N.of_nat w ->
     (forall u, In u widths -> (u < w)%nat -> 256 ^ N.of_nat u <= x) -> shortest x w).
  { intros w Iw Lw H. repeat split; auto. intros u Iu Lu. destruct (Nat.le_gt_cases w u); auto.
    specialize (H u Iu H0). lia. }
  assert (E2 : 256 ^ N.of_nat 2 = 2 ^ 16) by reflexivity. assert (E4 : 256 ^ N.of_nat 4 = 2 ^ 32) by reflexivity.
  assert (E8 : 256 ^ N.of_nat 8 = 2 ^ 64) by reflexivity. assert (E16 : 256 ^ N.of_nat 16 = 2 ^ 128) by reflexivity.
  assert (E32 : 256 ^ N.of_nat 32 = 2 ^ 256) by reflexivity.
  assert (O1 : 2 ^ 16 < 2 ^ 32) by reflexivity. assert (O2 : 2 ^ 32 < 2 ^ 64) by reflexivity.
  assert (O3 : 2 ^ 64 < 2 ^ 128) by reflexivity.
  destruct (N.ltb_spec x (2 ^ 128)); [|exists 32%nat]; cbn [negb].
  2:{ split; [|repeat split; simpl; tauto]. apply S; [simpl; tauto|lia|].
      intros u [<-|[<-|[<-|[<-|[<-|[]]]]]]; lia. }
  destruct (N.ltb_spec x (2 ^ 64)); [|exists 16%nat]; cbn [negb].
  2:{ split; [|repeat split; simpl; tauto]. apply S; [simpl; tauto|lia|].
      intros u [<-|[<-|[<-|[<-|[<-|[]]]]]]; lia. }
  destruct (N.ltb_spec x (2 ^ 32)); [|exists 8%nat]; cbn [negb].
  2:{ split; [|repeat split; simpl; tauto]. apply S; [simpl; tauto|lia|].
      intros u [<-|[<-|[<-|[<-|[<-|[]]]]]]; lia. }
  destruct (N.ltb_spec x (2 ^ 16)); [exists 2%nat|exists 4%nat]; cbn [negb].
  - split; [|repeat split; simpl; tauto]. apply S; [simpl; tauto|lia|].
    intros u [<-|[<-|[<-|[<-|[<-|[]]]]]]; lia.
  - split; [|repeat split; simpl; tauto]. apply S; [simpl; tauto|lia|].
    intros u [<-|[<-|[<-|[<-|[<-|[]]]]]]; lia.
Qed.

Lemma get_put_val : forall v a c j, val_ok v ->
  let b := snd (put_val v) in
  get_val (buffer (a ++ b ++ c) j) (length (a ++ b ++ c)) (fst (put_val v)) (length a) = Some (v, (length a + length b)%nat).
Proof.
  intros v a c j OK. cbv zeta. destruct v as [| | |ad|x|d|d|ad n|ad]; cbn [put_val type_of fst snd val_ok] in *.
  - unfold get_val. simpl. now rewrite Nat.add_0_r.
  - unfold get_val. simpl. now rewrite Nat.add_0_r.
  - unfold get_val. simpl. now rewrite Nat.add_0_r.
  - unfold get_val. change (3 =? 0) with false. change (3 =? 1) with false. change (3 =? 2) with false.
    change (3 =? 3) with true. cbv iota. rewrite ltb_room by (rewrite !app_length, le_length; lia).
    rewrite peek_buffer' by (rewrite ?le_length; reflexivity). rewrite of_le_le_small by exact OK. now rewrite le_length.
  - destruct (put_uint_cases x OK) as (w & (Iw & Lw & _) & E & U & T).
    set (ty := fst (put_uint x)) in *. clearbody ty. rewrite E. rewrite le_length.
    assert (G : get_val (buffer (a ++ le_bytes w x ++ c) j) (length (a ++ le_bytes w x ++ c)) ty (length a)
      = let size := uint_size ty in
        if (length (a ++ le_bytes w x ++ c) <? length a + size)%nat then None
        else Some (VUint (of_le (peek (buffer (a ++ le_bytes w x ++ c) j) (length a) size)), (length a + size)%nat)).
    { destruct T as [<-|[<-|[<-|[<-|[<-|[]]]]]]; reflexivity. }
    rewrite G. cbv zeta. rewrite U. rewrite ltb_room by (rewrite !app_length, le_length; lia).
    rewrite peek_buffer' by (rewrite ?le_length; reflexivity). rewrite of_le_le_small by exact Lw. reflexivity.
  - destruct OK as [OK L]. unfold get_val. change (5 =? 0) with false. change (5 =? 1) with false. change (5 =? 2) with false.
    change (5 =? 3) with false. change ((5 =? 4) || _ || _ || _ || _ || _) with false.
    change ((5 =? 5) || (5 =? 6)) with true. change (5 =? 5) with true. cbv iota.
    rewrite ltb_room by (rewrite !app_length, le_length; lia). cbv zeta.
    rewrite <- app_assoc. rewrite (peek_buffer' a (le_bytes 4 (N.of_nat (length d)))) by (rewrite ?le_length; reflexivity).
    assert (L' : N.of_nat (length d) < 256 ^ N.of_nat 4) by (change (256 ^ N.of_nat 4) with (2 ^ 32); lia).
    rewrite of_le_le_small by exact L'.
    destruct (N.ltb_spec (N.of_nat (length (a ++ le_bytes 4 (N.of_nat (length d)) ++ d ++ c)))
       (N.of_nat (length a + 4) + N.of_nat (length d))) as [B|_].
    { rewrite !app_length, le_length in B. lia. }
    destruct (N.leb_spec (2 ^ 32 - 1) (N.of_nat (length d))); [lia|]. rewrite Nnat.Nat2N.id.
    rewrite (app_assoc a). rewrite peek_buffer' by (rewrite ?app_length, ?le_length; reflexivity).
    do 2 f_equal. rewrite app_length, le_length. lia.
  - destruct OK as [OK L]. unfold get_val. change (6 =? 0) with false. change (6 =? 1) with false. change (6 =? 2) with false.
    change (6 =? 3) with false. change ((6 =? 4) || _ || _ || _ || _ || _) with false.
    change ((6 =? 5) || (6 =? 6)) with true. change (6 =? 5) with false. cbv iota.
    rewrite ltb_room by (rewrite !app_length, le_length; lia). cbv zeta.
    rewrite <- app_assoc. rewrite (peek_buffer' a (le_bytes 4 (N.of_nat (length d)))) by (rewrite ?le_length; reflexivity).
    assert (L' : N.of_nat (length d) < 256 ^ N.of_nat 4) by (change (256 ^ N.of_nat 4) with (2 ^ 32); lia).
    rewrite of_le_le_small by exact L'.
    destruct (N.ltb_spec (N.of_nat (length (a ++ le_bytes 4 (N.of_nat (length d)) ++ d ++ c)))
       (N.of_nat (length a + 4) + N.of_nat (length d))) as [B|_].
    { rewrite !app_length, le_length in B. lia. }
    destruct (N.leb_spec (2 ^ 32 - 1) (N.of_nat (length d))); [lia|]. rewrite Nnat.Nat2N.id.
    rewrite (app_assoc a). rewrite peek_buffer' by (rewrite ?app_length, ?le_length; reflexivity).
    do 2 f_equal. rewrite app_length, le_length. lia.
  - destruct OK as [OK L]. unfold get_val. change (7 =? 0) with false. change (7 =? 1) with false. change (7 =? 2) with false.
    change (7 =? 3) with false. change ((7 =? 4) || _ || _ || _ || _ || _) with false.
    change ((7 =? 5) || (7 =? 6)) with false. change (7 =? 7) with true. cbv iota.
    rewrite ltb_room by (rewrite !app_length, !le_length; lia).
    rewrite <- app_assoc. rewrite (peek_buffer' a (le_bytes 8 ad)) by (rewrite ?le_length; reflexivity).
    rewrite (app_assoc a). rewrite peek_buffer' by (rewrite ?app_length, ?le_length; reflexivity).
    rewrite !of_le_le_small by assumption. rewrite app_length, !le_length. reflexivity.
  - unfold get_val. change (8 =? 0) with false. change (8 =? 1) with false. change (8 =? 2) with false.
    change (8 =? 3) with false. change ((8 =? 4) || _ || _ || _ || _ || _) with false.
    change ((8 =? 5) || (8 =? 6)) with false. change (8 =? 7) with false. change (8 =? 8) with true. cbv iota.
    rewrite ltb_room by (rewrite !app_length, le_length; lia).
    rewrite peek_buffer' by (rewrite ?le_length; reflexivity). rewrite of_le_le_small by exact OK. now rewrite le_length.
Qed.

Lemma get_typed_put : forall v rc fl a c j, val_ok v ->
  let b := fst (put_val v) :: snd (put_val v) in
  get_typed (buffer (a ++ b ++ c) j) (length (a ++ b ++ c)) rc fl (length a)
  = Some ({| v_rc := rc; v_flags := fl; v_val := v |}, (length a + length b)%nat).
Proof.
  intros v rc fl a c j OK. cbv zeta. unfold get_typed.
  rewrite ltb_room by (rewrite !app_length; simpl; lia).
  cbn [app]. rewrite (at_buffer a _ (snd (put_val v) ++ c)) by reflexivity.
  pose proof (get_put_val v (a ++ [fst (put_val v)]) c j OK) as H. cbv zeta in H.
  rewrite <- app_assoc in H. cbn [app] in H. rewrite (app_length a [_]) in H. cbn [length] in H.
  rewrite H. cbn [length]. do 2 f_equal. lia.
Qed.

Lemma get_flags_put : forall v rc a c j (with_vf : bool), val_ok (v_val v) ->
  let b := (if with_vf then [v_flags v] else []) ++ fst (put_val (v_val v)) :: snd (put_val (v_val v)) in
  get_flags (buffer (a ++ b ++ c) j) (length (a ++ b ++ c)) rc with_vf (length a)
  = Some ({| v_rc := rc; v_flags := if with_vf then v_flags v else 0; v_val := v_val v |}, (length a + length b)%nat).
Proof.
  intros v rc a c j vf OK. cbv zeta. unfold get_flags. destruct vf; [|apply get_typed_put; auto].
  rewrite ltb_room by (rewrite !app_length; simpl; lia).
  pose proof (get_typed_put (v_val v) rc (v_flags v) (a ++ [v_flags v]) c j OK) as H. cbv zeta in H.
  rewrite <- app_assoc in H. cbn [app] in *. rewrite (app_length a [_]) in H. cbn [length] in H.
  rewrite at_buffer by reflexivity. rewrite H. cbn [length]. do 2 f_equal. lia.
Qed.

Lemma round_trip : forall v rc vf rest junk, var_ok v ->
  deserialize (buffer (serialize v rc vf ++ rest) junk) (length (serialize v rc vf ++ rest)) rc vf
  = Some (stored_part v rc vf, length (serialize v rc vf)).
Proof.
  intros v rc vf rest junk (R & F & OK). unfold serialize, deserialize, stored_part. destruct rc.
  - rewrite ltb_room by (rewrite !app_length, le_length; lia).
    rewrite <- !app_assoc. rewrite peek_buffer0 by (rewrite ?le_length; reflexivity).
    rewrite of_le_le_small by exact R.
    pose proof (get_flags_put v (v_rc v) (le_bytes 4 (v_rc v)) rest junk vf OK) as H. cbv zeta in H.
    rewrite <- !app_assoc in H. rewrite le_length in H. rewrite H. now rewrite (app_length (le_bytes _ _)), le_length.
  - pose proof (get_flags_put v 0 [] rest junk vf OK) as H. cbv zeta in H. cbn [app length] in *. exact H.
Qed.

(** bounds *)
Lemma get_val_bounds : forall d e len ty o,
  (forall i, (i < len)%nat -> d i = e i) -> (o <= len)%nat ->
  get_val d len ty o = get_val e len ty o /\
  (forall v n, get_val d len ty o = Some (v, n) -> (o <= n <= len)%nat).
Proof.
  intros d e len ty o E Lo.
  assert (K : forall o n, (len <? o + n)%nat = false -> peek d o n = peek e o n).
  { intros. apply Nat.ltb_ge in H. apply peek_ext. intros. apply E. lia. }
  unfold get_val.
  destruct (ty =? 0); [split; [easy|intros v n H; injection H; lia]|].
  destruct (ty =? 1); [split; [easy|intros v n H; injection H; lia]|].
  destruct (ty =? 2); [split; [easy|intros v n H; injection H; lia]|].
  destruct (ty =? 3).
  { destruct (len <? o + 8)%nat eqn:L; [split; [easy|discriminate]|]. rewrite (K _ _ L). apply Nat.ltb_ge in L.
    split; [easy|intros v n H; injection H; lia]. }
  match goal with |- context [if ?c then _ else _] => destruct c end.
  { cbv zeta. destruct (len <? o + uint_size ty)%nat eqn:L; [split; [easy|discriminate]|]. rewrite (K _ _ L).
    apply Nat.ltb_ge in L. split; [easy|intros v n H; injection H; lia]. }
  match goal with |- context [if ?c then _ else _] => destruct c end.
  { destruct (len <? o + 4)%nat eqn:L; [split; [easy|discriminate]|]. rewrite (K _ _ L). apply Nat.ltb_ge in L. cbv zeta.
    set (sz := of_le (peek e o 4)). clearbody sz.
    destruct (N.ltb_spec (N.of_nat len) (N.of_nat (o + 4) + sz)) as [|L2]; [split; [easy|discriminate]|].
    destruct (2 ^ 32 - 1 <=? sz); [split; [easy|discriminate]|].
    rewrite (K (o + 4)%nat (N.to_nat sz)) by (apply Nat.ltb_ge; lia).
    split; [easy|]. intros v n H. injection H as _ <-. lia. }
  destruct (ty =? 7).
  { destruct (len <? o + 12)%nat eqn:L; [split; [easy|discriminate]|]. apply Nat.ltb_ge in L.
    rewrite (K o 8%nat), (K (o + 8)%nat 4%nat) by (apply Nat.ltb_ge; lia).
    split; [easy|intros v n H; injection H; lia]. }
  destruct (ty =? 8); [|split; [easy|discriminate]].
  destruct (len <? o + 8)%nat eqn:L; [split; [easy|discriminate]|]. rewrite (K _ _ L). apply Nat.ltb_ge in L.
  split; [easy|intros v n H; injection H; lia].
Qed.

Lemma get_typed_bounds : forall d e len rc fl o,
  (forall i, (i < len)%nat -> d i = e i) -> (o <= len)%nat ->
  get_typed d len rc fl o = get_typed e len rc fl o /\
  (forall v n, get_typed d len rc fl o = Some (v, n) -> (o < n <= len)%nat).
Proof.
  intros d e len rc fl o E Lo. unfold get_typed. destruct (len <? o + 1)%nat eqn:L; [split; [easy|discriminate]|].
  apply Nat.ltb_ge in L. rewrite (E o) by lia.
  destruct (get_val_bounds d e len (e o) (o + 1) E) as [A B]; [lia|]. rewrite A in *. split; [easy|].
  intros v n H. destruct (get_val e len (e o) (o + 1)) as [[w m]|]; [|discriminate].
  injection H as _ <-. specialize (B w m eq_refl). lia.
Qed.
Lemma get_flags_bounds : forall d e len rc vf o,
  (forall i, (i < len)%nat -> d i = e i) -> (o <= len)%nat ->
  get_flags d len rc vf o = get_flags e len rc vf o /\
  (forall v n, get_flags d len rc vf o = Some (v, n) -> (o < n <= len)%nat).
Proof.
  intros d e len rc vf o E Lo. unfold get_flags. destruct vf; [|apply get_typed_bounds; auto].
  destruct (len <? o + 1)%nat eqn:L; [split; [easy|discriminate]|]. apply Nat.ltb_ge in L. rewrite (E o) by lia.
  destruct (get_typed_bounds d e len rc (e o) (o + 1) E) as [A B]; [lia|]. split; [exact A|].
  intros v n H. specialize (B v n H). lia.
Qed.
Lemma deserialize_bounds : forall d e len rc vf,
  (forall i, (i < len)%nat -> d i = e i) ->
  deserialize d len rc vf = deserialize e len rc vf /\
  (forall v n, deserialize d len rc vf = Some (v, n) -> (0 < n <= len)%nat).
Proof.
  intros d e len rc vf E. unfold deserialize. destruct rc; [|apply get_flags_bounds; auto; lia].
  destruct (len <? 0 + 4)%nat eqn:L; [split; [easy|discriminate]|]. apply Nat.ltb_ge in L.
  assert (K : peek d 0 4 = peek e 0 4) by (apply peek_ext; intros; apply E; lia). rewrite K.
  destruct (get_flags_bounds d e len (of_le (peek e 0 4)) vf 4 E) as [A B]; [lia|]. split; [exact A|].
  intros v n H. specialize (B v n H). lia.
Qed.

(** whatever is decoded is a value the classes can hold *)
Lemma peek_ok : forall d o n, (forall i, d i < 256) -> bytes_ok (peek d o n).
Proof. intros. unfold peek, bytes_ok. apply Forall_forall. intros x Hx. apply in_map_iff in Hx. destruct Hx as (i & <- & _). auto. Qed.
Lemma of_peek_bound : forall d o n, (forall i, d i < 256) -> of_le (peek d o n) < 256 ^ N.of_nat n.
Proof. intros. rewrite <- (peek_length d o n) at 2. apply of_le_bound, peek_ok; auto. Qed.
Lemma get_val_ok : forall d len ty o v n, (forall i, d i < 256) -> get_val d len ty o = Some (v, n) -> val_ok v.
Proof.
  intros d len ty o v n B. unfold get_val.
  destruct (ty =? 0); [intros H; injection H as <- _; exact I|].
  destruct (ty =? 1); [intros H; injection H as <- _; exact I|].
  destruct (ty =? 2); [intros H; injection H as <- _; exact I|].
  destruct (ty =? 3).
  { destruct (len <? o + 8)%nat; [discriminate|]. intros H; injection H as <- _. apply (of_peek_bound d o 8 B). }
  match goal with |- context [if ?c then _ else _] => destruct c end.
  { cbv zeta. destruct (len <? o + uint_size ty)%nat; [discriminate|]. intros H; injection H as <- _. cbn [val_ok].
    eapply N.lt_le_trans; [apply of_peek_bound; auto|]. change (2 ^ 256) with (256 ^ 32).
    apply N.pow_le_mono_r; [discriminate|]. unfold uint_size. repeat (destruct (ty =? _); [cbv; discriminate|]). cbv. discriminate. }
  match goal with |- context [if ?c then _ else _] => destruct c end.
  { destruct (len <? o + 4)%nat; [discriminate|]. cbv zeta. set (sz := of_le (peek d o 4)). clearbody sz.
    destruct (N.of_nat len <? N.of_nat (o + 4) + sz); [discriminate|].
    destruct (N.leb_spec (2 ^ 32 - 1) sz) as [|L]; [discriminate|]. intros H; injection H as <- _.
    assert (bytes_ok (peek d (o + 4) (N.to_nat sz)) /\ N.of_nat (length (peek d (o + 4) (N.to_nat sz))) < 2 ^ 32 - 1).
    { split; [now apply peek_ok|]. rewrite peek_length. lia. }
    destruct (ty =? 5); exact H. }
  destruct (ty =? 7).
  { destruct (len <? o + 12)%nat; [discriminate|]. intros H; injection H as <- _. split.
    - apply (of_peek_bound d o 8 B).
    - apply (of_peek_bound d (o + 8) 4 B). }
  destruct (ty =? 8); [|discriminate].
  destruct (len <? o + 8)%nat; [discriminate|]. intros H; injection H as <- _. apply (of_peek_bound d o 8 B).
Qed.
Lemma deserialize_ok : forall d len rc vf v n, (forall i, d i < 256) ->
  deserialize d len rc vf = Some (v, n) -> var_ok v.
Proof.
  intros d len rc vf v n B. 
  assert (T : forall rcv fl o, rcv < 2 ^ 32 -> fl < 256 -> get_typed d len rcv fl o = Some (v, n) -> var_ok v).
  { intros rcv fl o R F. unfold get_typed. destruct (len <? o + 1)%nat; [discriminate|].
    destruct (get_val d len (d o) (o + 1)) as [[w m]|] eqn:G; [|discriminate]. intros H; injection H as <- _.
    repeat split; cbn; auto. eapply get_val_ok; eauto. }
  assert (F : forall rcv o, rcv < 2 ^ 32 -> get_flags d len rcv vf o = Some (v, n) -> var_ok v).
  { intros rcv o R. unfold get_flags. destruct vf; [|apply T; auto; reflexivity].
    destruct (len <? o + 1)%nat; [discriminate|]. apply T; auto. }
  unfold deserialize. destruct rc; [|apply F; reflexivity].
  destruct (len <? 0 + 4)%nat; [discriminate|]. apply F. apply (of_peek_bound d 0 4 B).
Qed.

(** width of the stored integer *)
Lemma uint_width : forall v x (rc vf : bool), v_val v = VUint x -> x < 2 ^ 256 ->
  exists w, shortest x w /\
  length (serialize v rc vf) = ((if rc then 4 else 0) + (if vf then 1 else 0) + 1 + w)%nat.
Proof.
  intros v x rc vf E Hx. destruct (put_uint_cases x Hx) as (w & S & D & _). exists w. split; [exact S|].
  unfold serialize. rewrite E. cbn [put_val]. rewrite !app_length. cbn [length]. rewrite D, le_length.
  destruct rc, vf; rewrite ?le_length; simpl; lia.
Qed.

(** ordering *)
Lemma cmp_num_spec : forall x y, cmp_num x y = match x ?= y with Lt => (-1)%Z | Eq => 0%Z | Gt => 1%Z end.
Proof.
  intros. unfold cmp_num. destruct (N.compare_spec x y) as [->|H|H].
  - now rewrite N.eqb_refl.
  - destruct (N.eqb_spec x y); [lia|]. destruct (N.ltb_spec x y); [easy|lia].
  - destruct (N.eqb_spec x y); [lia|]. destruct (N.ltb_spec x y); [lia|easy].
Qed.
Lemma cmp_num_opp : forall x y, cmp_num y x = (- cmp_num x y)%Z.
Proof. intros. rewrite !cmp_num_spec, (N.compare_antisym x y). now destruct (x ?= y). Qed.
Lemma cmp_num_eq : forall x y, cmp_num x y = 0%Z <-> x = y.
Proof. intros. rewrite cmp_num_spec. destruct (N.compare_spec x y); split; intros; try easy; lia. Qed.
Lemma cmp_num_trans : forall x y z, (cmp_num x y <= 0)%Z -> (cmp_num y z <= 0)%Z -> (cmp_num x z <= 0)%Z.
Proof.
  intros x y z. rewrite !cmp_num_spec.
  destruct (N.compare_spec x y), (N.compare_spec y z), (N.compare_spec x z); try lia.
Qed.

Lemma memcmp_opp : forall a b, length a = length b -> memcmp b a = (- memcmp a b)%Z.
Proof.
  induction a as [|x a IH]; destruct b as [|y b]; intros L; try discriminate; [reflexivity|]. injection L as L.
  cbn [memcmp]. rewrite (N.eqb_sym y x). destruct (N.eqb_spec x y); [now apply IH|].
  destruct (N.ltb_spec x y), (N.ltb_spec y x); try lia.
Qed.
Lemma memcmp_eq : forall a b, length a = length b -> memcmp a b = 0%Z <-> a = b.
Proof.
  induction a as [|x a IH]; destruct b as [|y b]; intros L; try discriminate; [easy|]. injection L as L.
  cbn [memcmp]. destruct (N.eqb_spec x y) as [->|].
  - rewrite IH by exact L. split; [now intros ->|now intros [= ->]].
  - split; [destruct (x <? y); discriminate|congruence].
Qed.
Lemma memcmp_trans : forall a b c, length a = length b -> length b = length c ->
  (memcmp a b <= 0)%Z -> (memcmp b c <= 0)%Z -> (memcmp a c <= 0)%Z.
Proof.
  induction a as [|x a IH]; destruct b as [|y b]; destruct c as [|z c]; intros L M; try discriminate.
  injection L as L. injection M as M. cbn [memcmp].
  destruct (N.eqb_spec x y), (N.eqb_spec y z), (N.eqb_spec x z); try congruence; intros A B; try (eapply IH; eassumption);
    destruct (N.ltb_spec x y), (N.ltb_spec y z), (N.ltb_spec x z); try discriminate; lia.
Qed.

Lemma cmp_bin_opp : forall a b, cmp_bin b a = (- cmp_bin a b)%Z.
Proof.
  intros. unfold cmp_bin. rewrite (N.eqb_sym (N.of_nat (length b))).
  destruct (N.eqb_spec (N.of_nat (length a)) (N.of_nat (length b))).
  - apply memcmp_opp. lia.
  - destruct (N.ltb_spec (N.of_nat (length a)) (N.of_nat (length b))), (N.ltb_spec (N.of_nat (length b)) (N.of_nat (length a))); lia.
Qed.
Lemma cmp_bin_eq : forall a b, cmp_bin a b = 0%Z <-> a = b.
Proof.
  intros. unfold cmp_bin. destruct (N.eqb_spec (N.of_nat (length a)) (N.of_nat (length b))).
  - apply memcmp_eq. lia.
  - split; [destruct (_ <? _); discriminate|intros ->; congruence].
Qed.
Lemma cmp_bin_trans : forall a b c, (cmp_bin a b <= 0)%Z -> (cmp_bin b c <= 0)%Z -> (cmp_bin a c <= 0)%Z.
Proof.
  intros a b c. unfold cmp_bin.
  destruct (N.eqb_spec (N.of_nat (length a)) (N.of_nat (length b))),
    (N.eqb_spec (N.of_nat (length b)) (N.of_nat (length c))),
    (N.eqb_spec (N.of_nat (length a)) (N.of_nat (length c))); intros A B;
    try (apply (memcmp_trans a b c); auto; lia);
    destruct (N.ltb_spec (N.of_nat (length a)) (N.of_nat (length b))),
      (N.ltb_spec (N.of_nat (length b)) (N.of_nat (length c))),
      (N.ltb_spec (N.of_nat (length a)) (N.of_nat (length c))); lia.
Qed.

Lemma compare_opp : forall a b, compare b a = (- compare a b)%Z.
Proof.
  intros [] []; unfold compare; cbn [type_of]; try reflexivity; cbn [N.eqb Pos.eqb negb];
    first [apply cmp_num_opp | apply cmp_bin_opp].
Qed.
Lemma compare_eq : forall a b, compare a b = 0%Z <-> same_value a b.
Proof.
  intros [] []; unfold compare, same_value; cbn [type_of]; cbn [N.eqb Pos.eqb negb N.ltb N.compare Pos.compare Pos.compare_cont];
    try (split; [discriminate|intros E; discriminate E]); try easy.
  - rewrite cmp_num_eq. split; [now intros ->|now intros [= ->]].
  - rewrite cmp_num_eq. split; [now intros ->|now intros [= ->]].
  - rewrite cmp_bin_eq. split; [now intros ->|now intros [= ->]].
  - rewrite cmp_bin_eq. split; [now intros ->|now intros [= ->]].
  - apply cmp_num_eq.
  - rewrite cmp_num_eq. split; [now intros ->|now intros [= ->]].
Qed.
Lemma compare_type : forall a b, (compare a b <= 0)%Z -> type_of a <= type_of b.
Proof.
  intros a b. unfold compare. destruct (N.eqb_spec (type_of a) (type_of b)); cbn [negb]; [lia|].
  destruct (N.ltb_spec (type_of a) (type_of b)); lia.
Qed.
Lemma compare_type_lt : forall a b, type_of a < type_of b -> (compare a b <= 0)%Z.
Proof.
  intros a b H. unfold compare. destruct (N.eqb_spec (type_of a) (type_of b)); cbn [negb]; [lia|].
  destruct (N.ltb_spec (type_of a) (type_of b)); lia.
Qed.
Lemma compare_trans : forall a b c, (compare a b <= 0)%Z -> (compare b c <= 0)%Z -> (compare a c <= 0)%Z.
Proof.
  intros a b c H1 H2. pose proof (compare_type a b H1) as T1. pose proof (compare_type b c H2) as T2.
  destruct (N.lt_ge_cases (type_of a) (type_of c)) as [T|T]; [now apply compare_type_lt|].
  assert (E1 : type_of a = type_of b) by lia. assert (E2 : type_of b = type_of c) by lia. clear T1 T2 T.
  destruct a, b; try discriminate E1; destruct c; try discriminate E2;
    unfold compare in *; cbn [type_of] in *; cbn [N.eqb Pos.eqb negb] in *; try lia;
    try (eapply cmp_num_trans; eassumption); eapply cmp_bin_trans; eassumption.
Qed.

Lemma compare_ptr_order :
  (forall a b, compare_ptr b a = (- compare_ptr a b)%Z) /\
  (forall a b c, (compare_ptr a b <= 0)%Z -> (compare_ptr b c <= 0)%Z -> (compare_ptr a c <= 0)%Z) /\
  (forall a b, compare_ptr a b = 0%Z <-> same_ptr a b).
Proof.
  split; [|split].
  - intros [a|] [b|]; cbn; try reflexivity. apply compare_opp.
  - intros [a|] [b|] [c|]; cbn; try lia. apply compare_trans.
  - intros [a|] [b|]; cbn; try easy. apply compare_eq.
Qed.
