Require Import List Arith NArith Lia Bool Permutation.
From Verif Require Import BytesLib BitsLib InstrModel InstrSpec.
Import ListNotations.
Open Scope N_scope.

Lemma read_le_app : forall n x rest, x < 256 ^ N.of_nat n -> read_le n (le_bytes n x ++ rest) = Some (x, rest).
Proof.
  intros n x rest H. unfold read_le. rewrite app_length, le_length.
  replace (n + length rest <? n)%nat with false by (symmetry; apply Nat.ltb_ge; lia).
  rewrite firstn_app, firstn_all2 by (rewrite le_length; lia). rewrite skipn_app, skipn_all2 by (rewrite le_length; lia).
  rewrite le_length, Nat.sub_diag. simpl. rewrite app_nil_r, of_le_le_small by exact H. reflexivity.
Qed.
Lemma read_list_app : forall l rest, Forall (fun x => x < 2 ^ 32) l ->
  read_list (length l) (flat_map (le_bytes 4) l ++ rest) = Some (l, rest).
Proof.
  induction l as [|x l IH]; intros rest F; [reflexivity|]. inversion F; subst. cbn [length read_list flat_map].
  rewrite <- app_assoc, (read_le_app 4 x) by exact H1. now rewrite IH.
Qed.

Lemma sym_index_sound : forall x l k i, sym_index x l k = Some i ->
  k <= i < k + N.of_nat (length l) /\ nth_error l (N.to_nat (i - k)) = Some x.
Proof.
  intros x l. induction l as [|y l IH]; intros k i H; [discriminate|]. cbn [sym_index length] in *.
  destruct (N.eqb_spec x y) as [->|].
  - injection H as <-. split; [lia|]. now rewrite N.sub_diag.
  - apply IH in H. destruct H as [B H]. split; [lia|].
    replace (N.to_nat (i - k)) with (S (N.to_nat (i - (k + 1)))) by lia. exact H.
Qed.

Lemma le_bytes_cons8 : forall n y, le_bytes (S n) (N.lor (N.shiftl y 8) 0xFF) = 0xFF :: le_bytes n y.
Proof.
  intros n y. rewrite (lor_shiftl_add y 0xFF 8) by reflexivity. change (2 ^ 8) with 256. cbn [le_bytes]. f_equal.
  - rewrite N.add_comm, N.mod_add by discriminate. reflexivity.
  - f_equal. rewrite N.add_comm, N.div_add by discriminate. reflexivity.
Qed.

Lemma decode_encode_sym : forall sl x rest, (length sl <= max_symbols)%nat -> x < 2 ^ 32 ->
  decode_sym sl (encode_sym sl x ++ rest) = Some (x, rest).
Proof.
  intros sl x rest HL Hx. unfold encode_sym.
  assert (ML : N.of_nat (length sl) <= 33022) by (unfold max_symbols in HL; lia). clear HL.
  destruct (sym_index x sl 0) as [i|] eqn:E.
  - apply sym_index_sound in E. destruct E as [B E]. rewrite N.sub_0_r in E. rewrite N.add_0_l in B.
    destruct (N.ltb_spec i 0xFF) as [L|L].
    + unfold decode_sym. rewrite (read_le_app 1 i) by (change (256 ^ N.of_nat 1) with 256; lia).
      replace (i <? 255) with true by (symmetry; apply N.ltb_lt; lia). now rewrite E.
    + rewrite le_bytes_cons8. unfold decode_sym.
      change ((255 :: le_bytes 2 (i - 255)) ++ rest) with (le_bytes 1 255 ++ (le_bytes 2 (i - 255) ++ rest)).
      rewrite (read_le_app 1 255) by reflexivity. change (255 <? 255) with false. cbn iota.
      rewrite (read_le_app 2 (i - 255)) by (change (256 ^ N.of_nat 2) with 65536; lia).
      replace (i - 255 <? 32767) with true by (symmetry; apply N.ltb_lt; lia).
      rewrite N.mod_small by (change (2 ^ 16) with 65536; lia). replace (i - 255 + 255) with i by lia. now rewrite E.
  - destruct (N.ltb_spec x 0x7FFF) as [L|L].
    + rewrite le_bytes_cons8. unfold decode_sym.
      assert (Ey : N.lor (N.shiftl 1 15) x = 0x8000 + x).
      { rewrite (lor_shiftl_add 1 x 15); [reflexivity|]. change (2 ^ 15) with 32768. lia. }
      rewrite Ey. change ((255 :: le_bytes 2 (32768 + x)) ++ rest) with (le_bytes 1 255 ++ (le_bytes 2 (32768 + x) ++ rest)).
      rewrite (read_le_app 1 255) by reflexivity. change (255 <? 255) with false. cbn iota.
      rewrite (read_le_app 2 (32768 + x)) by (change (256 ^ N.of_nat 2) with 65536; lia).
      replace (32768 + x <? 32767) with false by (symmetry; apply N.ltb_ge; lia).
      replace (32768 + x <? 65535) with true by (symmetry; apply N.ltb_lt; lia).
      change 0x7FFF with (2 ^ 15 - 1) at 1. rewrite land_mask. change (2 ^ 15) with 32768.
      rewrite N.add_comm. rewrite <- (N.mul_1_l 32768) at 1. rewrite N.mod_add by discriminate. rewrite N.mod_small by lia. reflexivity.
    + assert (E7 : N.lor (N.shiftl x 24) 0xFFFFFF = N.lor (N.shiftl (N.lor (N.shiftl (N.lor (N.shiftl x 8) 255) 8) 255) 8) 255).
      { rewrite (lor_shiftl_add x 0xFFFFFF 24) by reflexivity. rewrite !(lor_shiftl_add _ 255 8) by reflexivity.
        change (2 ^ 24) with 16777216. change (2 ^ 8) with 256. lia. }
      rewrite E7, !le_bytes_cons8. unfold decode_sym.
      change ((255 :: 255 :: 255 :: le_bytes 4 x) ++ rest) with (le_bytes 1 255 ++ (le_bytes 2 65535 ++ (le_bytes 4 x ++ rest))).
      rewrite (read_le_app 1 255) by reflexivity. change (255 <? 255) with false. cbn iota.
      rewrite (read_le_app 2 65535) by reflexivity.
      change (65535 <? 32767) with false. change (65535 <? 65535) with false. cbn iota.
      rewrite (read_le_app 4 x) by exact Hx. reflexivity.
Qed.

(** *** the symbol list *)
Lemma insert_sym_in : forall cnt x l y, In y (insert_sym cnt x l) <-> y = x \/ In y l.
Proof.
  intros cnt x l y. induction l as [|z l IH]; cbn [insert_sym]; [simpl; intuition|].
  destruct (_ || _); simpl; [intuition|]. rewrite IH. intuition.
Qed.
Lemma sorted_in : forall cnt l y, In y (fold_right (insert_sym cnt) [] l) <-> In y l.
Proof. intros cnt l y. induction l as [|x l IH]; [reflexivity|]. simpl. rewrite insert_sym_in, IH. intuition. Qed.
Lemma sym_list_in : forall code x, In x (sym_list code) -> In x (all_symbols code).
Proof.
  intros code x H. unfold sym_list in H. 
  assert (K : forall (A : Type) n (l : list A) y, In y (firstn n l) -> In y l).
  { intros A n. induction n; intros [|a l] y; simpl; intuition. }
  apply K, sorted_in, filter_In in H. destruct H as [H _]. now apply nodup_In in H.
Qed.
Lemma sym_list_length : forall code, (length (sym_list code) <= max_symbols)%nat.
Proof. intros. unfold sym_list. apply firstn_le_length. Qed.

Lemma encode_instr_val : forall i, instr_ok i -> encode_instr i = i_flags i * 256 + i_code i.
Proof. intros i H. unfold encode_instr. apply (lor_shiftl_add _ _ 8), H. Qed.
Lemma encode_instr_bound : forall i, instr_ok i -> encode_instr i < 2 ^ 32.
Proof.
  intros i H. rewrite encode_instr_val by exact H. pose proof (io_code i H) as Hc. pose proof (io_flags i H) as Hf.
  change (2 ^ 8) with 256 in *. change (2 ^ 32) with 4294967296. lia.
Qed.
Lemma used_bound : forall i, instr_ok i -> Forall (fun x => x < 2 ^ 32) (used_args i).
Proof.
  intros i [_ _ Ha Hb Hc Hd]. unfold used_args. apply Forall_forall. intros x Hx.
  assert (In x [i_a i; i_b i; i_c i; i_d i]) as K.
  { revert Hx. generalize (op_nargs (i_code i)) as n, [i_a i; i_b i; i_c i; i_d i] as l.
    intros n. induction n; intros [|a l]; simpl; intuition. }
  simpl in K. intuition; subst; assumption.
Qed.
Lemma all_symbols_bound : forall code, Forall instr_ok code -> Forall (fun x => x < 2 ^ 32) (all_symbols code).
Proof.
  intros code F. unfold all_symbols. apply Forall_flat_map. eapply Forall_impl; [|exact F]. intros i Hi.
  apply Forall_app. split; [now apply used_bound|]. constructor; [now apply encode_instr_bound|constructor].
Qed.

Lemma decode_args_app : forall sl l rest, (length sl <= max_symbols)%nat -> Forall (fun x => x < 2 ^ 32) l ->
  decode_args sl (length l) (flat_map (encode_sym sl) l ++ rest) = Some (l, rest).
Proof.
  intros sl l rest HL. induction 1 as [|x l Hx _ IH]; [reflexivity|]. cbn [length decode_args flat_map].
  now rewrite <- app_assoc, decode_encode_sym, IH.
Qed.

Lemma nargs_le4 : forall c, (op_nargs c <= 4)%nat.
Proof. intros c. unfold op_nargs. repeat match goal with |- context [if ?b then _ else _] => destruct b end; lia. Qed.

Lemma decode_one_app : forall sl i rest, (length sl <= max_symbols)%nat -> instr_ok i ->
  decode_one sl (flat_map (encode_sym sl) (encode_instr i :: used_args i) ++ rest) = Some (canon i, rest).
Proof.
  intros sl i rest HL Hi. unfold decode_one. cbn [flat_map].
  rewrite <- app_assoc, decode_encode_sym by (auto using encode_instr_bound).
  rewrite encode_instr_val by exact Hi. pose proof (io_code i Hi) as Hc. pose proof (io_flags i Hi) as Hf.
  change (2 ^ 8) with 256 in *.
  assert (Ec : N.land (i_flags i * 256 + i_code i) 255 = i_code i).
  { rewrite land_255, N.add_comm, N.mod_add by discriminate. now apply N.mod_small. }
  assert (Ef : N.land (N.shiftr (i_flags i * 256 + i_code i) 8) 255 = i_flags i).
  { rewrite land_255, N.shiftr_div_pow2. change (2 ^ 8) with 256. rewrite N.add_comm, N.div_add by discriminate.
    rewrite (N.div_small (i_code i)) by exact Hc. rewrite N.add_0_l. now apply N.mod_small. }
  rewrite Ec, Ef. pose proof (nargs_le4 (i_code i)) as NL.
  assert (EL : length (used_args i) = op_nargs (i_code i)) by (unfold used_args; rewrite firstn_length; simpl; lia).
  rewrite <- EL at 1. rewrite decode_args_app by (auto using used_bound). f_equal. f_equal.
  unfold canon, used_args. destruct (op_nargs (i_code i)) as [|[|[|[|[|n]]]]]; try reflexivity.
Qed.
Lemma decode_many_app : forall sl code rest, (length sl <= max_symbols)%nat -> Forall instr_ok code ->
  decode_many sl (length code) (flat_map (fun i => flat_map (encode_sym sl) (encode_instr i :: used_args i)) code ++ rest)
  = Some (map canon code, rest).
Proof.
  intros sl code rest HL. induction 1 as [|i code Hi _ IH]; [reflexivity|]. cbn [length decode_many map].
  replace (flat_map _ (i :: code) ++ rest) with
    (flat_map (encode_sym sl) (encode_instr i :: used_args i) ++
     (flat_map (fun i => flat_map (encode_sym sl) (encode_instr i :: used_args i)) code ++ rest)) by (rewrite app_assoc; reflexivity).
  rewrite decode_one_app by assumption. now rewrite IH.
Qed.

Theorem code_round_trip : forall code rest, Forall instr_ok code -> N.of_nat (length code) < 2 ^ 32 ->
  deserialize_code (serialize_code code ++ rest) = Some (map canon code, rest).
Proof.
  intros code rest F HL. unfold serialize_code. set (sl := sym_list code).
  pose proof (sym_list_length code) as SL. fold sl in SL.
  assert (SF : Forall (fun x => x < 2 ^ 32) sl).
  { apply Forall_forall. intros x Hx. apply sym_list_in in Hx. pose proof (all_symbols_bound code F) as B. rewrite Forall_forall in B. auto. }
  clearbody sl. unfold deserialize_code. rewrite <- !app_assoc. rewrite (read_le_app 1 1) by reflexivity.
  change (negb (1 =? 1)) with false. cbn iota.
  assert (ML : N.of_nat (length sl) <= 33022) by (unfold max_symbols in SL; lia).
  rewrite (read_le_app 4) by (change (256 ^ N.of_nat 4) with 4294967296; lia).
  replace (0x7FFF + 0xFF <? N.of_nat (length sl)) with false by (symmetry; apply N.ltb_ge; exact ML).
  rewrite Nat2N.id, read_list_app by exact SF. rewrite (read_le_app 4) by exact HL. rewrite Nat2N.id.
  now apply decode_many_app.
Qed.

Lemma canon_id : forall i, unused_zero i -> canon i = i.
Proof.
  intros [code flags a b c d]. unfold canon, unused_zero. cbn. intros (Ha & Hb & Hc & Hd).
  destruct (op_nargs code) as [|[|[|[|n]]]]; cbn; try rewrite Ha by lia; try rewrite Hb by lia; try rewrite Hc by lia; try rewrite Hd by lia; reflexivity.
Qed.
Theorem code_round_trip_exact : forall code rest, Forall instr_ok code -> Forall unused_zero code -> N.of_nat (length code) < 2 ^ 32 ->
  deserialize_code (serialize_code code ++ rest) = Some (code, rest).
Proof.
  intros code rest F U L. rewrite code_round_trip by assumption. f_equal. f_equal.
  rewrite <- (map_id code) at 2. apply map_ext_in. intros i Hi. apply canon_id. rewrite Forall_forall in U. auto.
Qed.
