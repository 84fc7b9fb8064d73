Require Import List Arith NArith Lia Bool.
From Verif Require Import BitsLib PosModel PosSpec.
Import ListNotations.
Open Scope N_scope.

(** *** arithmetic views of bit operations *)
Lemma pow2_pos : forall n, 0 < 2 ^ n. Proof. intros. apply N.neq_0_lt_0, pow2_nz. Qed.
Lemma mod_pow_add : forall x a b, x mod 2 ^ (a + b) = x mod 2 ^ a + 2 ^ a * ((x / 2 ^ a) mod 2 ^ b).
Proof. intros. rewrite N.pow_add_r. apply N.mod_mul_r; apply pow2_nz. Qed.
Lemma div_pow_add : forall x a b, x / 2 ^ (a + b) = x / 2 ^ a / 2 ^ b.
Proof. intros. rewrite N.pow_add_r, N.div_div by apply pow2_nz. reflexivity. Qed.
Lemma lor_hi_lo : forall a b n, b < 2 ^ n -> N.lor b (a * 2 ^ n) = b + 2 ^ n * a.
Proof.
  intros a b n H. rewrite N.lor_comm. rewrite (lor_small_add _ _ n H); [lia|]. apply N.mod_mul, pow2_nz.
Qed.
Lemma mod_mod_pow : forall x a b, a <= b -> (x mod 2 ^ b) mod 2 ^ a = x mod 2 ^ a.
Proof.
  intros x a b H. replace b with (a + (b - a)) by lia. rewrite mod_pow_add.
  rewrite (N.mul_comm (2 ^ a)), N.mod_add by apply pow2_nz. apply N.mod_mod, pow2_nz.
Qed.
Lemma mul_mod_pow : forall x a b, (x * 2 ^ a) mod 2 ^ (a + b) = (x mod 2 ^ b) * 2 ^ a.
Proof. intros. rewrite N.pow_add_r, (N.mul_comm (2 ^ a)), N.mul_mod_distr_r by apply pow2_nz. reflexivity. Qed.
Lemma div_mod_pow : forall x a b, (x mod 2 ^ (a + b)) / 2 ^ a = (x / 2 ^ a) mod 2 ^ b.
Proof.
  intros. rewrite mod_pow_add, N.mul_comm, N.div_add by apply pow2_nz.
  rewrite N.div_small by (apply N.mod_lt, pow2_nz). apply N.add_0_l.
Qed.

(** *** symbols *)
Definition code_of (s : N) : N := match encode_symbol s with Some (c, _) => c | None => 0 end.
Definition len_of (s : N) : N := match encode_symbol s with Some (_, l) => l | None => 0 end.

Lemma below_list : forall n s, s < N.of_nat n -> In s (map N.of_nat (seq 0 n)).
Proof. intros n s H. apply in_map_iff. exists (N.to_nat s). split; [apply N2Nat.id|]. apply in_seq. lia. Qed.

(** the shape of a code: [i] times the digit 3 (base 4), then the digit [m] *)
Fixpoint code4 (i : nat) (m : N) : N := match i with O => m | S k => 3 + 4 * code4 k m end.
Lemma symbol_facts : forall s, s < 48 ->
  encode_symbol s = Some (code_of s, len_of s) /\ len_of s = 2 * N.of_nat (N.to_nat (s / 3)) + 2 /\
  code_of s = code4 (N.to_nat (s / 3)) (s mod 3) /\ code_of s < 2 ^ len_of s.
Proof.
  intros s H. apply (below_list 48) in H. revert s H. apply Forall_forall.
  repeat (constructor; [vm_compute; repeat split; reflexivity|]). constructor.
Qed.
Lemma symbol_none : forall s, 48 <= s -> encode_symbol s = None.
Proof.
  intros s H. unfold encode_symbol. replace (s <? 3) with false by (symmetry; apply N.ltb_ge; lia).
  assert (16 <= s / 3) by (apply N.div_le_lower_bound; lia).
  replace (15 <? s / 3) with true by (symmetry; apply N.ltb_lt; lia). reflexivity.
Qed.
Lemma len_bound : forall s, s < 48 -> 2 <= len_of s <= 32.
Proof.
  intros s H. apply (below_list 48) in H. revert s H. apply Forall_forall.
  repeat (constructor; [vm_compute; split; discriminate|]). constructor.
Qed.
Lemma len_bound16 : forall s, s < 24 -> 2 <= len_of s <= 16.
Proof.
  intros s H. apply (below_list 24) in H. revert s H. apply Forall_forall.
  repeat (constructor; [vm_compute; split; discriminate|]). constructor.
Qed.

Lemma land_3 : forall x, N.land x 3 = x mod 4. Proof. intros. apply (land_mask x 2). Qed.
Lemma code4_digit : forall i m x, m < 3 -> x mod 2 ^ (2 * N.of_nat i + 2) = code4 i m ->
  match i with O => x mod 4 = m | S k => x mod 4 = 3 /\ (x / 4) mod 2 ^ (2 * N.of_nat k + 2) = code4 k m end.
Proof.
  intros [|k] m x Hm H.
  - exact H.
  - replace (2 * N.of_nat (S k) + 2) with (2 + (2 * N.of_nat k + 2)) in H by lia. rewrite mod_pow_add in H.
    change (2 ^ 2) with 4 in H. cbn [code4] in H.
    pose proof (N.mod_lt x 4 ltac:(discriminate)). set (r := x mod 4) in *. set (q := (x / 4) mod _) in *. clearbody r q. lia.
Qed.
Lemma decode_loop_sym_code4 : forall i n idx m x, (i < n)%nat -> m < 3 ->
  x mod 2 ^ (2 * N.of_nat i + 2) = code4 i m ->
  decode_loop_sym n idx x = (3 * (idx + N.of_nat i) + m, 2 * (idx + N.of_nat i) + 2).
Proof.
  induction i as [|i IH]; intros n idx m x Hn Hm H; (destruct n as [|n]; [lia|]); apply code4_digit in H; auto; cbn [decode_loop_sym]; rewrite land_3.
  - rewrite H. destruct (N.eqb_spec m 3); [lia|]. f_equal; lia.
  - destruct H as [H1 H2]. rewrite H1. cbn [N.eqb Pos.eqb].
    rewrite N.shiftr_div_pow2. change (2 ^ 2) with 4. rewrite (IH n (idx + 1) m (x / 4)); [|lia|exact Hm|exact H2].
    f_equal; lia.
Qed.

Lemma decode_symbol_spec : forall s x, s < 48 -> x mod 2 ^ len_of s = code_of s -> decode_symbol x = (s, len_of s).
Proof.
  intros s x Hs H. destruct (symbol_facts s Hs) as (_ & HL & HC & _). pose proof (len_bound s Hs) as LB.
  assert (Hi : (N.to_nat (s / 3) < 16)%nat) by (assert (s / 3 < 16) by (apply N.div_lt_upper_bound; lia); lia).
  unfold decode_symbol. set (y := x mod 2 ^ 32).
  assert (Hy : y mod 2 ^ len_of s = code_of s) by (unfold y; rewrite mod_mod_pow by lia; exact H).
  clearbody y. clear H x. rewrite HL, HC in Hy.
  pose proof (N.mod_lt s 3 ltac:(discriminate)) as Hm.
  pose proof (N.div_mod s 3 ltac:(discriminate)) as DM.
  rewrite HL, N2Nat.id in *. set (i := N.to_nat (s / 3)) in *.
  assert (Ei : s / 3 = N.of_nat i) by (unfold i; now rewrite N2Nat.id).
  rewrite Ei in *. set (m := s mod 3) in *. clearbody i m. clear HL HC LB Ei.
  rewrite land_3.
  pose proof (code4_digit i m y Hm Hy) as D. destruct i as [|i].
  - rewrite D. replace (m <? 3) with true by (symmetry; apply N.ltb_lt; lia). f_equal; lia.
  - destruct D as [D1 _]. rewrite D1. cbn [N.ltb N.compare Pos.compare Pos.compare_cont].
    change (3 <? 3) with false. cbn iota.
    rewrite (decode_loop_sym_code4 (S i) 16 0 m y Hi Hm Hy). f_equal; lia.
Qed.

(** *** streams as numbers *)
Fixpoint nbits (syms : list N) : N := match syms with [] => 0 | s :: r => len_of s + nbits r end.
Fixpoint cval (syms : list N) : N := match syms with [] => 0 | s :: r => code_of s + 2 ^ len_of s * cval r end.

Lemma cval_bound : forall syms, Forall (fun s => s < 48) syms -> cval syms < 2 ^ nbits syms.
Proof.
  induction 1 as [|s r Hs _ IH]; cbn [cval nbits]; [reflexivity|]. rewrite N.pow_add_r.
  destruct (symbol_facts s Hs) as (_ & _ & _ & B). set (P := 2 ^ len_of s) in *. set (Q := 2 ^ nbits r) in *. nia.
Qed.

Lemma wval_app : forall a b, wval (a ++ b) = wval a + 2 ^ (64 * N.of_nat (length a)) * wval b.
Proof.
  induction a as [|w a IH]; intros b; [simpl; destruct (wval b); reflexivity|]. cbn [app wval length]. rewrite IH.
  replace (64 * N.of_nat (S (length a))) with (64 + 64 * N.of_nat (length a)) by lia. rewrite N.pow_add_r. 
  set (P := 2 ^ 64). set (Q := 2 ^ (64 * _)). lia.
Qed.

Lemma word_at : forall ws i w, Forall (fun w => w < 2 ^ 64) ws -> nth_error ws i = Some w ->
  w = (wval ws / 2 ^ (64 * N.of_nat i)) mod 2 ^ 64.
Proof.
  induction ws as [|v ws IH]; intros i w F H; [destruct i; discriminate|]. inversion F as [|? ? Hv F']; subst.
  cbn [wval]. destruct i as [|i].
  - simpl in H. injection H as ->. change (64 * N.of_nat 0) with 0. rewrite N.pow_0_r, N.div_1_r.
    rewrite (N.mul_comm (2 ^ 64)), N.mod_add by apply pow2_nz. now rewrite N.mod_small.
  - simpl in H. replace (64 * N.of_nat (S i)) with (64 + 64 * N.of_nat i) by lia. rewrite div_pow_add.
    rewrite (N.mul_comm (2 ^ 64)), N.div_add by apply pow2_nz. rewrite (N.div_small v) by exact Hv. rewrite N.add_0_l.
    apply IH; auto.
Qed.

(** *** encode *)
Lemma encode_loop_spec : forall syms offset buffer, Forall (fun s => s < 48) syms -> offset < 64 -> buffer < 2 ^ offset ->
  exists ws, encode_loop syms offset buffer = Some ws /\ Forall (fun w => w < 2 ^ 64) ws /\
    wval ws = buffer + 2 ^ offset * cval syms /\
    64 * N.of_nat (length ws) = 64 * ((offset + nbits syms + 63) / 64).
Proof.
  induction syms as [|s r IH]; intros offset buffer F Ho Hb.
  - cbn [encode_loop cval nbits]. destruct (N.eqb_spec offset 0) as [->|Ne].
    + exists []. split; [reflexivity|]. split; [constructor|]. change (2 ^ 0) with 1 in *. split; [simpl; lia|reflexivity].
    + exists [buffer]. split; [reflexivity|]. split.
      * constructor; [|constructor]. eapply N.lt_trans; [exact Hb|]. apply N.pow_lt_mono_r; lia.
      * split; [cbn [wval]; rewrite !N.mul_0_r; lia|].
        assert ((offset + 0 + 63) / 64 = 1). { symmetry. apply (N.div_unique _ _ _ (offset - 1)); lia. }
        rewrite H. reflexivity.
  - inversion F as [|? ? Hs F']; subst. destruct (symbol_facts s Hs) as (E & _ & _ & CB). pose proof (len_bound s Hs) as LB.
    cbn [encode_loop cval nbits]. rewrite E. set (c := code_of s) in *. set (l := len_of s) in *.
    assert (Hor : N.lor buffer (N.shiftl c offset mod 2 ^ 64) = buffer + 2 ^ offset * (c mod 2 ^ (64 - offset))).
    { rewrite N.shiftl_mul_pow2. replace 64 with (offset + (64 - offset)) at 1 by lia. rewrite mul_mod_pow. now apply lor_hi_lo. }
    rewrite Hor. destruct (N.leb_spec 64 (offset + l)) as [L|L].
    + (* a word is pushed *)
      assert (Hfin : (offset + l) mod 64 = offset + l - 64).
      { symmetry. apply (N.mod_unique _ _ 1); lia. }
      rewrite Hfin.
      set (nb := if 64 <? offset + l then N.shiftr c (64 - offset) else 0).
      assert (Enb : nb = c / 2 ^ (64 - offset)).
      { unfold nb. destruct (N.ltb_spec 64 (offset + l)); [apply N.shiftr_div_pow2|].
        symmetry. apply N.div_small. replace (64 - offset) with l by lia. exact CB. }
      assert (Hnb : nb < 2 ^ (offset + l - 64)).
      { rewrite Enb. apply N.div_lt_upper_bound; [apply pow2_nz|]. rewrite <- N.pow_add_r.
        replace (64 - offset + (offset + l - 64)) with l by lia. exact CB. }
      destruct (IH (offset + l - 64) nb F' ltac:(lia) Hnb) as (ws & E1 & W & V & Len).
      exists ([buffer + 2 ^ offset * (c mod 2 ^ (64 - offset))] ++ ws). rewrite E1. split; [reflexivity|]. split.
      * constructor; [|exact W].
        assert (c mod 2 ^ (64 - offset) < 2 ^ (64 - offset)) by (apply N.mod_lt, pow2_nz).
        replace (2 ^ 64) with (2 ^ offset * 2 ^ (64 - offset)) by (rewrite <- N.pow_add_r; f_equal; lia).
        set (P := 2 ^ offset) in *. set (Q := 2 ^ (64 - offset)) in *. set (x := c mod Q) in *. nia.
      * split.
        -- cbn [app wval]. rewrite V, Enb.
           pose proof (N.div_mod c (2 ^ (64 - offset)) (pow2_nz _)) as DM.
           replace (2 ^ 64) with (2 ^ offset * 2 ^ (64 - offset)) by (rewrite <- N.pow_add_r; f_equal; lia).
           replace (2 ^ l) with (2 ^ (64 - offset) * 2 ^ (offset + l - 64)) by (rewrite <- N.pow_add_r; f_equal; lia).
           set (P := 2 ^ offset) in *. set (Q := 2 ^ (64 - offset)) in *. set (R := 2 ^ (offset + l - 64)) in *.
           set (x := c mod Q) in *. set (y := c / Q) in *. clearbody x y P Q R. rewrite DM. ring.
        -- cbn [app length]. rewrite Nat2N.inj_succ.
           replace (offset + (l + nbits r) + 63) with (offset + l - 64 + nbits r + 63 + 1 * 64) by lia.
           rewrite N.div_add by discriminate. set (d := _ / 64) in *. clearbody d. lia.
    + replace (64 <? offset + l) with false by (symmetry; apply N.ltb_ge; lia).
      rewrite (N.mod_small (offset + l)) by lia.
      assert (Hc : c mod 2 ^ (64 - offset) = c).
      { apply N.mod_small. eapply N.lt_le_trans; [exact CB|]. apply N.pow_le_mono_r; lia. }
      rewrite Hc. assert (Hnb : buffer + 2 ^ offset * c < 2 ^ (offset + l)).
      { rewrite N.pow_add_r. set (P := 2 ^ offset) in *. set (Q := 2 ^ l) in *. nia. }
      destruct (IH (offset + l) _ F' ltac:(lia) Hnb) as (ws & E1 & W & V & Len).
      exists ws. rewrite E1. split; [reflexivity|]. split; [exact W|]. split.
      * rewrite V, N.pow_add_r. ring.
      * rewrite Len, N.add_assoc. reflexivity.
Qed.

(** *** decode *)
Lemma decode_loop_spec : forall ws syms, Forall (fun w => w < 2 ^ 64) ws -> Forall (fun s => s < 24) syms ->
  forall offset bits buffer p, p + bits = offset -> bits <= 64 -> buffer = (wval ws / 2 ^ p) mod 2 ^ bits ->
  offset <= 64 * N.of_nat (length ws) -> (offset mod 64 <= 48 \/ 16 <= bits) ->
  p + nbits syms <= 64 * N.of_nat (length ws) ->
  (wval ws / 2 ^ p) mod 2 ^ nbits syms = cval syms ->
  decode_loop ws (length syms) offset bits buffer = Some syms.
Proof.
  intros ws syms W. induction syms as [|s r IH]; intros F offset bits buffer p Hp Hbits Hbuf Hoff Q Hend Hval; [reflexivity|].
  pose proof (Forall_inv F) as Hs. pose proof (Forall_inv_tail F) as F'. cbn beta in Hs. specialize (IH F'). cbn [nbits cval length] in *.
  assert (Hs48 : s < 48) by lia. pose proof (len_bound16 s Hs) as LB.
  destruct (symbol_facts s Hs48) as (_ & _ & _ & CB). set (l := len_of s) in *. set (c := code_of s) in *.
  set (S := wval ws) in *. set (T := 64 * N.of_nat (length ws)) in *.
  assert (Hc : (S / 2 ^ p) mod 2 ^ l = c /\ (S / 2 ^ (p + l)) mod 2 ^ nbits r = cval r).
  { rewrite mod_pow_add in Hval. rewrite div_pow_add. pose proof (N.mod_lt (S / 2 ^ p) (2 ^ l) (pow2_nz _)) as ML.
    set (x := (S / 2 ^ p) mod 2 ^ l) in *. set (y := (S / 2 ^ p / 2 ^ l) mod 2 ^ nbits r) in *.
    set (P := 2 ^ l) in *. clearbody x y P. destruct (N.div_mod_unique P y (cval r) x c ML CB ltac:(lia)). auto. }
  destruct Hc as [Hc Hr].
  (* one step from a buffer with enough bits *)
  assert (STEP : forall offset bits buffer, p + bits = offset -> bits <= 64 -> buffer = (S / 2 ^ p) mod 2 ^ bits ->
    offset <= T -> l <= bits -> (offset mod 64 <= 48 \/ 16 <= bits - l) ->
    (let '(sym, len) := decode_symbol buffer in
     if bits <? len then None
     else match decode_loop ws (length r) offset (bits - len) (N.shiftr buffer len) with
          | None => None | Some out => Some (sym :: out) end) = Some (s :: r)).
  { clear offset bits buffer Hp Hbits Hbuf Hoff Q. intros offset bits buffer Hp Hbits Hbuf Hoff Hl Q.
    rewrite (decode_symbol_spec s buffer Hs48).
    2:{ fold l c. rewrite Hbuf, mod_mod_pow by exact Hl. exact Hc. }
    fold l. replace (bits <? l) with false by (symmetry; apply N.ltb_ge; lia).
    rewrite (IH offset (bits - l) (N.shiftr buffer l) (p + l)); try lia; auto.
    - rewrite N.shiftr_div_pow2, Hbuf. replace bits with (l + (bits - l)) at 1 by lia. rewrite div_mod_pow, <- div_pow_add. reflexivity. }
  cbn [decode_loop]. destruct (N.ltb_spec bits 32) as [B|B]; [|apply STEP; auto; lia].
  destruct (nth_error ws (N.to_nat (offset / 64))) as [w|] eqn:NE.
  - assert (Hi0 : offset / 64 < N.of_nat (length ws)).
    { assert (nth_error ws (N.to_nat (offset / 64)) <> None) as NN by congruence. apply nth_error_Some in NN. lia. }
    apply word_at in NE; auto. rewrite N2Nat.id in NE. fold S in NE.
    pose proof (N.div_mod offset 64 ltac:(discriminate)) as DM. pose proof (N.mod_lt offset 64 ltac:(discriminate)) as ML.
    set (o := offset mod 64) in *. set (i := offset / 64) in *.
    assert (Hi : 64 * i + 64 <= T) by (unfold T; lia).
    set (count := N.min (64 - o) (64 - bits)).
    assert (Hw : N.shiftr w o = (S / 2 ^ offset) mod 2 ^ (64 - o)).
    { rewrite NE, N.shiftr_div_pow2. replace 64 with (o + (64 - o)) at 2 by lia. rewrite div_mod_pow, <- div_pow_add.
      f_equal. f_equal. f_equal. clearbody o i. lia. }
    assert (Hnew : N.lor buffer (N.shiftl (N.shiftr w o) bits mod 2 ^ 64) = (S / 2 ^ p) mod 2 ^ (bits + count)).
    { rewrite N.shiftl_mul_pow2, Hw. replace 64 with (bits + (64 - bits)) at 2 by lia. rewrite mul_mod_pow.
      rewrite lor_hi_lo by (rewrite Hbuf; apply N.mod_lt, pow2_nz). rewrite mod_pow_add, <- Hbuf, <- div_pow_add, Hp. f_equal. f_equal.
      unfold count. destruct (N.le_ge_cases (64 - o) (64 - bits)) as [L|L].
      - rewrite N.min_l by exact L. apply N.mod_small. eapply N.lt_le_trans; [apply N.mod_lt, pow2_nz|]. apply N.pow_le_mono_r; lia.
      - rewrite N.min_r by exact L. apply mod_mod_pow. exact L. }
    rewrite Hnew. apply STEP; auto.
    + lia.
    + unfold count. lia.
    + unfold count. clearbody o i. lia.
    + unfold count. destruct Q as [Q|Q]; lia.
    + unfold count. destruct (N.le_ge_cases (64 - o) (64 - bits)) as [L|L].
      * left. rewrite N.min_l by exact L. replace (offset + (64 - o)) with ((i + 1) * 64) by (clearbody o i; lia).
        rewrite N.mod_mul by discriminate. lia.
      * right. rewrite N.min_r by exact L. lia.
  - apply nth_error_None in NE.
    pose proof (N.div_mod offset 64 ltac:(discriminate)) as DM. pose proof (N.mod_lt offset 64 ltac:(discriminate)) as ML.
    assert (HT : offset = T /\ offset mod 64 = 0).
    { unfold T in *. set (o := offset mod 64) in *. set (i := offset / 64) in *. clearbody o i. lia. }
    destruct HT as [HT H0]. assert (l <= bits) by lia.
    destruct (N.eqb_spec bits 0); [lia|]. apply STEP; auto. left. rewrite H0. lia.
Qed.

Theorem decode_at : forall ws syms offset, Forall (fun w => w < 2 ^ 64) ws -> Forall (fun s => s < 24) syms ->
  offset mod 64 <= 48 -> offset + nbits syms <= 64 * N.of_nat (length ws) ->
  (wval ws / 2 ^ offset) mod 2 ^ nbits syms = cval syms ->
  decode ws (length syms) offset = Some syms.
Proof.
  intros ws syms offset W F Ho He Hv. unfold decode. apply (decode_loop_spec ws syms W F offset 0 0 offset); auto; try lia.
  now rewrite N.pow_0_r, N.mod_1_r.
Qed.

Theorem encode_spec : forall syms, Forall (fun s => s < 48) syms ->
  exists ws, encode syms = Some ws /\ Forall (fun w => w < 2 ^ 64) ws /\ wval ws = cval syms /\ nbits syms <= 64 * N.of_nat (length ws) < nbits syms + 64.
Proof.
  intros syms F. destruct (encode_loop_spec syms 0 0 F ltac:(lia) ltac:(reflexivity)) as (ws & E & W & V & L).
  exists ws. split; [exact E|]. split; [exact W|]. split; [rewrite V, N.pow_0_r; lia|].
  rewrite L, N.add_0_l. pose proof (N.div_mod (nbits syms + 63) 64 ltac:(discriminate)) as DM.
  pose proof (N.mod_lt (nbits syms + 63) 64 ltac:(discriminate)) as ML.
  set (d := _ / 64) in *. set (m := _ mod 64) in *. clearbody d m. lia.
Qed.

Lemma nbits_stream : forall syms, Forall (fun s => s < 48) syms -> nbits syms = stream_bits syms.
Proof.
  induction 1 as [|s r Hs _ IH]; [reflexivity|]. cbn [nbits stream_bits]. rewrite IH.
  destruct (symbol_facts s Hs) as (_ & HL & _). rewrite HL, N2Nat.id. reflexivity.
Qed.
Lemma Forall_24_48 : forall l, Forall (fun s => s < 24) l -> Forall (fun s => s < 48) l.
Proof. intros l. apply Forall_impl. intros; lia. Qed.

Theorem round_trip : forall syms, Forall (fun s => s < 24) syms ->
  exists ws, encode syms = Some ws /\ decode ws (length syms) 0 = Some syms.
Proof.
  intros syms F. destruct (encode_spec syms (Forall_24_48 _ F)) as (ws & E & W & V & L).
  exists ws. split; [exact E|]. apply decode_at; auto.
  - discriminate.
  - lia.
  - rewrite V, N.pow_0_r, N.div_1_r. apply N.mod_small, cval_bound, Forall_24_48, F.
Qed.

(** the encoded symbols may start anywhere in a longer stream *)
Theorem round_trip_at : forall syms enc ws offset, Forall (fun s => s < 24) syms -> encode syms = Some enc ->
  Forall (fun w => w < 2 ^ 64) ws -> offset mod 64 <= 48 ->
  offset + stream_bits syms <= 64 * N.of_nat (length ws) ->
  (wval ws / 2 ^ offset) mod 2 ^ stream_bits syms = wval enc ->
  decode ws (length syms) offset = Some syms.
Proof.
  intros syms enc ws offset F E W Ho He Hv. rewrite <- nbits_stream in * by (now apply Forall_24_48). apply decode_at; auto.
  destruct (encode_spec syms (Forall_24_48 _ F)) as (ws' & E' & _ & V & _). rewrite E in E'. injection E' as ->. now rewrite Hv.
Qed.

(** *** line points *)
Lemma tri_double : forall x, 2 * tri x = x * (x - 1).
Proof.
  intros x. unfold tri. assert (E : (x * (x - 1)) mod 2 = 0).
  { pose proof (N.div_mod x 2 ltac:(discriminate)) as DM. pose proof (N.mod_lt x 2 ltac:(discriminate)) as ML.
    set (q := x / 2) in *. set (r := x mod 2) in *. clearbody q r. assert (r = 0 \/ r = 1) as [->| ->] by lia.
    - replace (x * (x - 1)) with ((q * (x - 1)) * 2) by lia. now apply N.mod_mul.
    - replace (x * (x - 1)) with ((x * q) * 2) by (rewrite DM; replace (2 * q + 1 - 1) with (2 * q) by lia; ring). now apply N.mod_mul. }
  pose proof (N.div_mod (x * (x - 1)) 2 ltac:(discriminate)) as DM. rewrite E in DM. lia.
Qed.
Lemma tri_succ : forall x, tri (x + 1) = tri x + x.
Proof.
  intros x. pose proof (tri_double x). pose proof (tri_double (x + 1)). replace (x + 1 - 1) with x in H0 by lia.
  assert (2 * tri (x + 1) = 2 * (tri x + x)); [|lia]. rewrite H0, N.mul_add_distr_l, H.
  destruct (N.eq_dec x 0) as [->|]; [reflexivity|]. nia.
Qed.
Lemma tri_mono : forall x y, x <= y -> tri x <= tri y.
Proof.
  intros x y H. replace y with (x + (y - x)) by lia. generalize (y - x) as d. intros d. clear.
  induction d using N.peano_ind; [rewrite N.add_0_r; lia|]. replace (x + N.succ d) with ((x + d) + 1) by lia. rewrite tri_succ. lia.
Qed.
Lemma GetXEnc_tri : forall x, x < 2 ^ 32 -> GetXEnc x = tri x.
Proof.
  intros x H. unfold GetXEnc. destruct (N.eq_dec x 0) as [->|Nz]; [reflexivity|].
  replace ((x + 2 ^ 32 - 1) mod 2 ^ 32) with (x - 1).
  2:{ replace (x + 2 ^ 32 - 1) with (x - 1 + 1 * 2 ^ 32) by lia. rewrite N.mod_add by discriminate. now rewrite N.mod_small by lia. }
  pose proof (tri_double x) as T. pose proof (N.div_mod x 2 ltac:(discriminate)) as DM. pose proof (N.mod_lt x 2 ltac:(discriminate)) as ML.
  set (q := x / 2) in *. set (r := x mod 2) in *. clearbody q r. destruct (N.eqb_spec r 0) as [->|R].
  - assert (E : q * (x - 1) = tri x) by nia. rewrite E. apply N.mod_small.
    assert (2 * tri x < 2 ^ 32 * 2 ^ 32) by nia. change (2 ^ 64) with (2 ^ 32 * 2 ^ 32). lia.
  - assert (r = 1) by lia. subst r. replace ((x - 1) / 2) with q.
    2:{ replace (x - 1) with (q * 2) by lia. now rewrite N.div_mul. }
    assert (E : x * q = tri x) by nia. rewrite E. apply N.mod_small.
    assert (2 * tri x < 2 ^ 32 * 2 ^ 32) by nia. change (2 ^ 64) with (2 ^ 32 * 2 ^ 32). lia.
Qed.

Lemma square_loop_spec : forall n index x t, (n <= 32)%nat ->
  x mod 2 ^ N.of_nat n = 0 -> x + 2 ^ N.of_nat n <= 2 ^ 32 ->
  x <= t < x + 2 ^ N.of_nat n -> tri t <= index < tri (t + 1) -> square_loop n index x = t.
Proof.
  induction n as [|n IH]; intros index x t Hn Hm Hx Ht Hi.
  - change (2 ^ N.of_nat 0) with 1 in *. cbn [square_loop]. lia.
  - cbn [square_loop]. rewrite Nat2N.inj_succ, N.pow_succ_r' in *. pose proof (pow2_pos (N.of_nat n)) as PP.
    set (P := 2 ^ N.of_nat n) in *.
    rewrite (N.mod_small (x + P)) by lia. rewrite GetXEnc_tri by lia.
    assert (M : x mod P = 0).
    { rewrite N.mul_comm in Hm. rewrite N.mod_mul_r in Hm by lia. apply N.eq_add_0 in Hm. apply Hm. }
    destruct (N.leb_spec (tri (x + P)) index) as [L|L].
    + apply IH; try lia.
      * rewrite <- (N.mul_1_l P) at 1. rewrite N.mod_add by lia. exact M.
      * split; [|lia]. destruct (N.le_gt_cases (x + P) t) as [G|G]; [exact G|]. exfalso.
        assert (tri (t + 1) <= tri (x + P)) by (apply tri_mono; lia). lia.
    + apply IH; try lia. split; [lia|].
      destruct (N.lt_ge_cases t (x + P)) as [G|G]; [exact G|]. exfalso. assert (tri (x + P) <= tri t) by (now apply tri_mono). lia.
Qed.

Theorem line_point : forall x y, y < x < 2 ^ 32 -> LinePointToSquare (tri x + y) = (x, y).
Proof.
  intros x y H. unfold LinePointToSquare.
  assert (E : square_loop 32 (tri x + y) 0 = x).
  { change (2 ^ 32) with (2 ^ N.of_nat 32) in H. apply square_loop_spec; [lia|reflexivity|discriminate|rewrite N.add_0_l; lia|].
    rewrite tri_succ. lia. }
  rewrite E, GetXEnc_tri by lia. f_equal.
  replace (tri x + y + 2 ^ 64 - tri x) with (y + 2 ^ 32 * 2 ^ 32) by (change (2 ^ 64) with (2 ^ 32 * 2 ^ 32); lia).
  rewrite N.mod_add by discriminate. apply N.mod_small. lia.
Qed.
(** every 64-bit index below tri (2^32) is the line point of exactly one pair *)
Theorem line_point_onto : forall index, index < tri (2 ^ 32) -> exists x y, y < x < 2 ^ 32 /\ index = tri x + y.
Proof.
  intros index. generalize (2 ^ 32) as b. intros b. induction b as [|b IH] using N.peano_ind; intros H; [change (tri 0) with 0 in H; lia|].
  replace (N.succ b) with (b + 1) in H by lia. rewrite tri_succ in H.
  destruct (N.lt_ge_cases index (tri b)) as [L|L].
  - destruct (IH L) as (x & y & Hxy & E). exists x, y. split; [lia|exact E].
  - exists b, (index - tri b). split; lia.
Qed.
