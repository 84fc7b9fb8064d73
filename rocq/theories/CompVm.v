(** Single instructions of the machine on numbers, truth values and null. *)
Require Import List Arith NArith ZArith Bool String Lia.
From Verif Require Import BytesLib OrdLib VarModel InstrModel EngineModel EngineProofs EngineUpper CompModel CompSpec CompGen CompLink.
Import List ListNotations.
Open Scope N_scope.

(** everything but memory, frames, gas and the numbers of objects *)
Definition aside (s : st) :=
  (s_ent s, s_keys s, s_bal s, s_outs s, s_mints s, (s_limit s, s_error s, s_init s, s_first_alloc s, s_heap_base s),
   (s_code s, s_contract s, s_version s, s_ro s, s_fetched s), s_world s).
Definition plain_obj (o : obj) : Prop := f_const (o_fl o) = false /\ f_deleted (o_fl o) = false /\ vals_of (o_val o) = true.
Definition tidy (s : st) : Prop := forall a o, MEM_STACK <= a < MEM_STATIC -> cell s (LMem a) = Some o -> plain_obj o.
Definition holds (s : st) (p : N) (v : val) : Prop := exists o, cell s (LMem p) = Some o /\ f_deleted (o_fl o) = false /\ o_val o = v.
Definition phys (sp a : N) : N := if a <? MEM_STACK then a else a + sp.
Definition addr_ok (sp a : N) : Prop := a < MEM_STACK \/ (MEM_STACK <= a < MEM_STATIC /\ a + sp < MEM_STATIC).
Definition mem_but (p : N) (s s' : st) : Prop := forall b, b <> p -> cell s' (LMem b) = cell s (LMem b).
Definition wrote (s : st) (p : N) (v : val) (s' : st) : Prop :=
  aside s' = aside s /\ mem_but p s s' /\ exists o, cell s' (LMem p) = Some o /\ plain_obj o /\ o_val o = v.
(** [ok]: a place on the stack; otherwise a constant *)
Definition place (ok : bool) (s : st) (p : N) : Prop :=
  if ok then MEM_STACK <= p < MEM_STATIC /\ tidy s else p < MEM_EXTERN /\ s_init s = true.

Lemma bind_eq {A B} (m : M A) (k : A -> M B) s a s' : m s = Ok a s' -> bind m k s = k a s'.
Proof. intros H. unfold bind. now rewrite H. Qed.
Lemma bind_throw {A B} (m : M A) (k : A -> M B) s s' : m s = Throw s' -> bind m k s = Throw s'.
Proof. intros H. unfold bind. now rewrite H. Qed.
Lemma aside_put_mem a o s : aside (put_cell (LMem a) o s) = aside s. Proof. reflexivity. Qed.

(** *** Numbers *)
Lemma add_mod T L R : L < T -> R < T -> (L + R) mod T = if L + R <? T then L + R else L + R - T.
Proof.
  intros HL HR. destruct (N.ltb_spec (L + R) T); [now apply N.mod_small|].
  replace (L + R) with ((L + R - T) + 1 * T) at 1 by lia. rewrite N.mod_add by lia. apply N.mod_small. lia.
Qed.
Lemma sub_mod T L R : L < T -> R < T -> (L + T - R) mod T = if R <=? L then L - R else L + T - R.
Proof.
  intros HL HR. destruct (N.leb_spec R L); [|apply N.mod_small; lia].
  replace (L + T - R) with ((L - R) + 1 * T) by lia. rewrite N.mod_add by lia. apply N.mod_small. lia.
Qed.
Lemma mul_over T L R : 0 < T -> negb (L =? 0) && ((T - 1) / L <? R) = negb (L * R <? T).
Proof.
  intros HT. destruct (N.eqb_spec L 0) as [->|NL]; cbn [negb andb].
  - rewrite N.mul_0_l. apply N.ltb_lt in HT. now rewrite HT.
  - rewrite <- N.leb_antisym. destruct (N.ltb_spec ((T - 1) / L) R) as [H|H], (N.leb_spec T (L * R)) as [K|K]; auto; exfalso.
    + pose proof (N.div_le_lower_bound (T - 1) L R NL). assert (L * R <= T - 1) by lia. lia.
    + pose proof (N.mul_div_le (T - 1) L NL). assert (L * R <= L * ((T - 1) / L)) by (apply N.mul_le_mono_l; auto). lia.
Qed.
Lemma pow2_spec v n : pow2 v = Some n -> v = VUint (2 ^ n).
Proof.
  unfold pow2. destruct v as [| | | |m| | | |]; try discriminate. destruct (_ && _) eqn:E; [|discriminate]. intros H. injection H as <-.
  apply andb_true_iff in E. destruct E as [E1 E2]. apply negb_true_iff, N.eqb_neq in E1. apply N.eqb_eq in E2. f_equal.
  destruct (N.log2_spec m) as [Lo Hi]; [lia|]. destruct (N.eq_dec m (2 ^ N.log2 m)) as [|Ne]; auto. exfalso.
  assert (B1 : N.testbit m (N.log2 m) = true) by (apply N.bit_log2; auto).
  assert (B2 : N.testbit (m - 1) (N.log2 m) = true).
  { rewrite <- (N.log2_unique (m - 1) (N.log2 m)) at 1; [apply N.bit_log2|lia|lia].
    pose proof (N.pow_nonzero 2 (N.log2 m)). lia. }
  assert (B : N.testbit (N.land m (m - 1)) (N.log2 m) = true) by (rewrite N.land_spec, B1, B2; auto).
  rewrite E2, N.bits_0 in B. discriminate.
Qed.
Lemma land_pow2 a n : N.land a (2 ^ n - 1) = a mod 2 ^ n.
Proof. rewrite <- N.land_ones, N.ones_equiv, N.sub_1_r. reflexivity. Qed.
Lemma bits_lt f n m k : (forall i, N.testbit (f n m) i = true -> N.testbit n i = true \/ N.testbit m i = true) ->
  n < 2 ^ k -> m < 2 ^ k -> f n m < 2 ^ k.
Proof.
  intros Hf Hn Hm. destruct (N.eq_dec (f n m) 0) as [->|Nz]; [pose proof (N.pow_nonzero 2 k); lia|].
  destruct (N.lt_ge_cases (f n m) (2 ^ k)) as [|Ge]; auto. exfalso.
  assert (Lk : k <= N.log2 (f n m)) by (apply N.log2_le_pow2; lia).
  assert (B : N.testbit (f n m) (N.log2 (f n m)) = true) by (apply N.bit_log2; auto).
  assert (Hs : forall u, u < 2 ^ k -> N.testbit u (N.log2 (f n m)) = false).
  { intros u Hu. apply N.testbit_false. rewrite N.div_small; [reflexivity|]. eapply N.lt_le_trans; [exact Hu|]. apply N.pow_le_mono_r; [discriminate|auto]. }
  apply Hf in B. rewrite (Hs n Hn), (Hs m Hm) in B. destruct B; discriminate.
Qed.
Lemma land_top n m : n < TOP -> m < TOP -> N.land n m < TOP.
Proof. apply (bits_lt N.land). intros i H. rewrite N.land_spec in H. apply andb_true_iff in H. tauto. Qed.
Lemma lor_top n m : n < TOP -> m < TOP -> N.lor n m < TOP.
Proof. apply (bits_lt N.lor). intros i H. rewrite N.lor_spec in H. apply orb_true_iff in H. tauto. Qed.
Lemma lxor_top n m : n < TOP -> m < TOP -> N.lxor n m < TOP.
Proof. apply (bits_lt N.lxor). intros i H. rewrite N.lxor_spec in H. destruct (N.testbit n i), (N.testbit m i); auto; discriminate. Qed.
Lemma TOP_pos : 0 < TOP. Proof. reflexivity. Qed.

Section VM.
  Variable bk : backend.
  Variable x : ext.
  Variable rc : bytes -> bytes -> N -> M unit.
  Variable rd : addr -> bytes -> N -> M unit.
  Notation set_frames := EngineModel.set_frames.
  Notation get := EngineModel.get.
  Notation copy := (EngineModel.copy bk).
  Notation read_fail := (EngineModel.read_fail bk).
  Notation write := (EngineModel.write bk).
  Notation write_val := (EngineModel.write_val bk).
  Notation exec := (EngineModel.exec bk x rc rd).
  Notation exec_op := (EngineModel.exec_op bk x rc rd).
  Notation step := (EngineModel.step bk x rc rd).
  Notation run := (EngineModel.run bk x rc rd).

  Lemma read_ok p s o : cell s (LMem p) = Some o -> f_deleted (o_fl o) = false -> read_fail p s = Ok o s.
  Proof.
    intros H D. unfold EngineModel.read_fail. erewrite bind_eq with (a := Some o) (s' := s); [reflexivity|].
    unfold EngineModel.read. erewrite bind_eq by reflexivity. rewrite H, D. reflexivity.
  Qed.
  Lemma read_uint_ok p s n : holds s p (VUint n) -> read_uint bk p s = Ok n s.
  Proof. intros (o & H & D & V). unfold read_uint. erewrite bind_eq by (eapply read_ok; eauto). now rewrite V. Qed.
  Lemma read_uint_no p s v : holds s p v -> (forall n, v <> VUint n) -> read_uint bk p s = Throw s.
  Proof.
    intros (o & H & D & V) Nu. unfold read_uint. erewrite bind_eq by (eapply read_ok; eauto). rewrite V.
    destruct v; try reflexivity. now edestruct Nu.
  Qed.
  Lemma clear_plain o s : vals_of (o_val o) = true -> clear bk o s = Ok tt s.
  Proof. unfold clear, clear_with. destruct (o_val o); intros; try discriminate; reflexivity. Qed.
  Lemma val_bytes_small v : vals_of v = true -> (MAX_VALUE_BYTES <? val_bytes v) = false.
  Proof. destruct v; intros; try discriminate; reflexivity. Qed.
  Lemma assign_loc_ok p v s : vals_of v = true -> (forall o, cell s (LMem p) = Some o -> plain_obj o) ->
    exists s', assign_loc bk (LMem p) v s = Ok tt s' /\ wrote s p v s' /\ s_frames s' = s_frames s.
  Proof.
    intros Hv Ho. unfold assign_loc. erewrite bind_eq by reflexivity.
    assert (E : exists rc0 f0, (match cell s (LMem p) with Some o => (o_rc o, o_fl o) | None => (0, no_fl) end) = (rc0, f0) /\ f_const f0 = false).
    { destruct (cell s (LMem p)) as [o|]; eexists _, _; split; try reflexivity. destruct (Ho o eq_refl); auto. }
    destruct E as (rc0 & f0 & E & Fc).
    erewrite bind_eq with (s' := s).
    2:{ destruct (cell s (LMem p)) as [o|]; [|reflexivity]. destruct (Ho o eq_refl) as (A & B & C). rewrite A. now apply clear_plain. }
    rewrite val_bytes_small by auto. erewrite bind_eq by reflexivity. unfold add_gas. erewrite bind_eq by reflexivity.
    erewrite bind_eq.
    2:{ rewrite E. unfold put_new. reflexivity. }
    match goal with |- context [put_cell ?l ?o ?s0] => assert (W : wrote s p v (put_cell l o s0)) end.
    { split; [reflexivity|]. split.
      - intros b Hb. rewrite cell_put_other by congruence. reflexivity.
      - eexists. split; [apply cell_put_same|]. split; [|reflexivity]. split; [exact Fc|]. split; [reflexivity|exact Hv]. }
    destruct v; try discriminate; eexists; (split; [reflexivity|]); split; auto.
  Qed.
  Lemma put_wrote p s o v : plain_obj o -> o_val o = v -> wrote s p v (put_cell (LMem p) o s).
  Proof.
    intros P V. split; [reflexivity|]. split.
    - intros b Hb. rewrite cell_put_other by congruence. reflexivity.
    - exists o. split; [apply cell_put_same|]. auto.
  Qed.
  Lemma wrote_twice s p v s1 w s2 : wrote s p v s1 -> wrote s1 p w s2 -> wrote s p w s2.
  Proof.
    intros (A & B & _) (A' & B' & C'). split; [congruence|]. split; auto. intros b Hb. rewrite B' by auto. now apply B.
  Qed.
  Lemma write_ok p r src s : load r s = Ok src s -> f_deleted (o_fl src) = false -> vals_of (o_val src) = true ->
    ref_loc r <> Some (LMem p) -> MEM_STACK <= p < MEM_STATIC -> tidy s ->
    exists s', write p r s = Ok tt s' /\ wrote s p (o_val src) s' /\ s_frames s' = s_frames s.
  Proof.
    intros L D Hv Nr Hp T. unfold EngineModel.write. erewrite bind_eq with (s' := s).
    2:{ unfold check_init. erewrite bind_eq by reflexivity. replace (p <? MEM_EXTERN) with false; [now rewrite andb_false_r|].
        symmetry. apply N.ltb_ge. unfold MEM_STACK in Hp. lia. }
    erewrite bind_eq with (s' := s).
    2:{ unfold load_for_write. erewrite bind_eq by reflexivity. destruct (cell s (LMem p)); [reflexivity|].
        replace (MEM_STATIC <=? p) with false by (symmetry; apply N.leb_gt; lia). reflexivity. }
    unfold write_gen. erewrite bind_eq by exact L.
    replace (match ref_loc r with Some l' => loc_eqb (LMem p) l' | None => false end) with false.
    2:{ destruct (ref_loc r) as [l|]; auto. destruct (loc_eqb_spec (LMem p) l); congruence. }
    rewrite D. erewrite bind_eq by reflexivity.
    destruct (cell s (LMem p)) as [o|] eqn:C.
    - destruct (T p o Hp C) as (Fc & Fd & Vo). rewrite Fc, Fd. unfold put at 1. erewrite bind_eq by reflexivity.
      set (s1 := put_cell (LMem p) o s).
      assert (W1 : wrote s p (o_val o) s1) by (apply put_wrote; auto; split; auto).
      assert (C1 : cell s1 (LMem p) = Some o) by apply cell_put_same.
      assert (As : exists s', assign_loc bk (LMem p) (o_val src) s1 = Ok tt s' /\ wrote s p (o_val src) s' /\ s_frames s' = s_frames s).
      { destruct (assign_loc_ok p (o_val src) s1 Hv) as (s' & E & W & F).
        - intros o' H. rewrite C1 in H. injection H as <-. split; auto.
        - exists s'. split; auto. split; [eapply wrote_twice; eauto|exact F]. }
      assert (Pt : forall f, f_const f = false -> f_deleted f = false ->
        exists s', put (LMem p) (mk_obj (o_id o) (o_rc o) f (o_val src)) s1 = Ok tt s' /\ wrote s p (o_val src) s' /\ s_frames s' = s_frames s).
      { intros f F1 F2. eexists. split; [reflexivity|]. split; [|reflexivity]. eapply wrote_twice; [exact W1|]. apply put_wrote; auto. split; auto. }
      assert (Sm : o_val src = o_val o -> exists s', ret tt s1 = Ok tt s' /\ wrote s p (o_val src) s' /\ s_frames s' = s_frames s).
      { intros E. exists s1. split; [reflexivity|]. rewrite E. auto. }
      destruct (o_val src) as [| | | |n| | | |] eqn:Ev; try discriminate; destruct (o_val o) as [| | | |m| | | |] eqn:Eo; try discriminate;
        cbn [is_simple andb type_of N.eqb]; auto.
      all: try (unfold with_val, with_fl, set_dirty; apply Pt; auto; fail).
      destruct (N.eqb_spec n m) as [->|]; [auto|]. unfold with_val, with_fl, set_dirty. apply Pt; auto.
    - destruct (o_val src) eqn:Ev; try discriminate; apply assign_loc_ok; auto; intros o H; congruence.
  Qed.
  Lemma write_val_place ok p v s : place ok s p -> vals_of v = true ->
    if ok then exists s', write_val p v s = Ok tt s' /\ wrote s p v s' /\ s_frames s' = s_frames s else write_val p v s = Throw s.
  Proof.
    intros Pl Hv. unfold EngineModel.write_val. destruct ok.
    - destruct Pl as [Hp T]. apply (write_ok p (STmp v) (mk_obj 0 0 no_fl v)); auto. discriminate.
    - destruct Pl as [Hp I]. unfold EngineModel.write. apply bind_throw. unfold check_init. erewrite bind_eq by reflexivity.
      rewrite I. replace (p <? MEM_EXTERN) with true by (symmetry; apply N.ltb_lt; auto). reflexivity.
  Qed.
  Lemma tidy_wrote s p v s' : vals_of v = true -> tidy s -> wrote s p v s' -> tidy s'.
  Proof.
    intros Hv T (_ & B & o & C & P & V) a o' Ha H. destruct (N.eq_dec a p) as [->|Ne].
    - rewrite C in H. now injection H as <-.
    - rewrite B in H by auto. eauto.
  Qed.
  Lemma holds_wrote s p v s' : wrote s p v s' -> holds s' p v.
  Proof. intros (_ & _ & o & C & (A & B & D) & V). exists o. auto. Qed.
  Lemma holds_but s s' p q v : mem_but p s s' -> q <> p -> holds s q v -> holds s' q v.
  Proof. intros B Ne (o & C & R). exists o. rewrite B; auto. Qed.

  (** operands *)
  Lemma frame_ok s f fs : s_frames s = f :: fs -> get_frame s = Ok f s.
  Proof. intros F. unfold get_frame. erewrite bind_eq by reflexivity. now rewrite F. Qed.
  Lemma jump_ok s ip' ip sp fs : s_frames s = (ip, sp) :: fs -> jump ip' s = Ok tt (set_frames ((ip', sp) :: fs) s).
  Proof. intros F. unfold jump. erewrite bind_eq by reflexivity. now rewrite F. Qed.
  Lemma deref_ok a s ip sp fs : s_frames s = (ip, sp) :: fs -> addr_ok sp a -> deref_addr bk a false s = Ok (phys sp a) s.
  Proof.
    intros F Ha. unfold deref_addr, phys. destruct (N.ltb_spec a MEM_STACK) as [L|L].
    - replace (MEM_STACK <=? a) with false by (symmetry; apply N.leb_gt; auto). reflexivity.
    - destruct Ha as [|[[A B] C]]; [lia|]. apply N.leb_le in A. rewrite A. apply N.ltb_lt in B. rewrite B. cbn [andb].
      erewrite bind_eq with (a := a + sp) (s' := s); [reflexivity|].
      erewrite bind_eq by (eapply frame_ok; eauto). cbn [snd]. apply N.leb_gt in C. now rewrite C.
  Qed.

  (** one instruction that goes on to the next *)
  Definition gassed (s : st) : st := set_gas (s_gas s + INSTR_COST) s.
  Definition acts (i : instr) (s : st) (r : option (N * val)) : Prop :=
    match r with
    | Some (p, v) => exists s' ip sp fs, exec i s = Ok tt s' /\ wrote s p v s' /\
                                    s_frames s = (ip, sp) :: fs /\ s_frames s' = ((ip + 1), sp) :: fs
    | None => exists s', exec i s = Throw s'
    end.
  Lemma acts_ok i s (m : M unit) p v s1 ip sp fs : exec_op i = (bind m (fun _ => ret true)) -> s_frames s = (ip, sp) :: fs -> ip + 1 < 2 ^ 64 ->
    m (gassed s) = Ok tt s1 -> wrote (gassed s) p v s1 -> s_frames s1 = s_frames s -> acts i s (Some (p, v)).
  Proof.
    intros E F B R (W1 & W2 & W3) Fr. exists (set_frames ((ip + 1, sp) :: fs) s1), ip, sp, fs. split.
    - unfold EngineModel.exec. unfold add_gas. erewrite bind_eq by reflexivity. fold (gassed s). rewrite E.
      erewrite bind_eq; [|erewrite bind_eq by exact R; reflexivity]. unfold next.
      rewrite F in Fr. erewrite bind_eq by (eapply frame_ok; eauto). cbn [fst]. rewrite N.mod_small by auto. eapply jump_ok; eauto.
    - split; [|auto]. split; [exact W1|]. split; [exact W2|exact W3].
  Qed.
  Lemma acts_throw i s (m : M unit) s1 : exec_op i = (bind m (fun _ => ret true)) -> m (gassed s) = Throw s1 -> acts i s None.
  Proof.
    intros E R. exists s1. unfold EngineModel.exec. unfold add_gas. erewrite bind_eq by reflexivity. fold (gassed s). rewrite E.
    apply bind_throw, bind_throw, R.
  Qed.

  (** the outcome of an operator, as the machine shows it *)
  Definition shows (ok : bool) (i : instr) (s : st) (p : N) (r : CompSpec.res value) : Prop :=
    match r with
    | Val v => small v = true /\ acts i s (if ok then Some (p, val_of v) else None)
    | Fail => acts i s None
    | Open => True
    end.
  Lemma place_gassed ok s p : place ok s p -> place ok (gassed s) p.
  Proof. destruct ok; intros H; exact H. Qed.

  Section OP.
    Variables (s : st) (ip sp : N) (fs : list (N * N)) (ok : bool) (dst a b : N) (v w : value).
    Hypothesis F : s_frames s = (ip, sp) :: fs.
    Hypothesis B : ip + 1 < 2 ^ 64.
    Hypothesis Ad : addr_ok sp dst.
    Hypothesis Aa : addr_ok sp a.
    Hypothesis Ab : addr_ok sp b.
    Hypothesis Hv : holds s (phys sp a) (val_of v).
    Hypothesis Hw : holds s (phys sp b) (val_of w).
    Hypothesis Pl : place ok s (phys sp dst).
    Hypothesis Sv : small v = true.
    Hypothesis Sw : small w = true.
    Notation p := (phys sp dst).

    Lemma write_shows i (m : M unit) u : exec_op i = (bind m (fun _ => ret true)) -> small u = true ->
      (exists g, m (gassed s) = write_val p (val_of u) (set_gas g (gassed s))) ->
      shows ok i s p (Val u).
    Proof.
      intros E Su (g & R). split; auto.
      assert (Pg : place ok (set_gas g (gassed s)) p) by (destruct ok; exact Pl).
      pose proof (write_val_place ok p (val_of u) _ Pg (vals_of_val u)) as W. destruct ok.
      - destruct W as (s' & W1 & W2 & W3). rewrite W1 in R. eapply acts_ok; eauto.
      - rewrite W in R. eapply acts_throw; eauto.
    Qed.
    Lemma throw_shows i (m : M unit) s1 : exec_op i = (bind m (fun _ => ret true)) -> m (gassed s) = Throw s1 -> shows ok i s p Fail.
    Proof. intros E R. eapply acts_throw; eauto. Qed.

    Lemma three {A} (k : N -> N -> N -> M A) code flags :
      N.testbit flags 0 = false -> N.testbit flags 1 = false -> N.testbit flags 2 = false ->
      forall i, i = mk_instr code flags dst a b 0 ->
      (bind (adr_a bk i) (fun d => bind (adr_b bk i) (fun l => bind (adr_c bk i) (fun r => k d l r)))) (gassed s) =
      k p (phys sp a) (phys sp b) (gassed s).
    Proof.
      intros F0 F1 F2 i ->. unfold adr_a, adr_b, adr_c, opflag. cbn [i_flags i_a i_b i_c]. unfold REF_A, REF_B, REF_C. rewrite F0, F1, F2.
      assert (F' : s_frames (gassed s) = (ip, sp) :: fs) by exact F.
      erewrite bind_eq by (eapply deref_ok; eauto). erewrite bind_eq by (eapply deref_ok; eauto). erewrite bind_eq by (eapply deref_ok; eauto).
      reflexivity.
    Qed.
    Lemma arith_shows code flags f r :
      N.testbit flags 0 = false -> N.testbit flags 1 = false -> N.testbit flags 2 = false ->
      let i := mk_instr code flags dst a b 0 in
      exec_op i = (bind (arith bk i f) (fun _ => ret true)) \/ exec_op i = (bind (bind get (fun s1 => arith bk i f)) (fun _ => ret true)) ->
      match v, w with
      | Num n, Num m => match f n m with Some (g, d) => r = Val (Num d) /\ d < TOP | None => r = Fail end
      | _, _ => r = Fail
      end ->
      shows ok i s p r.
    Proof.
      intros F0 F1 F2 i E R.
      assert (E' : exists m, exec_op i = (bind m (fun _ => ret true)) /\ m (gassed s) = arith bk i f (gassed s)).
      { destruct E as [E|E]; eexists; (split; [exact E|]); reflexivity. }
      destruct E' as (m & Em & Mm). unfold arith in Mm.
      rewrite (three _ code flags F0 F1 F2 i eq_refl) in Mm.
      assert (Hv' : holds (gassed s) (phys sp a) (val_of v)) by exact Hv.
      assert (Hw' : holds (gassed s) (phys sp b) (val_of w)) by exact Hw.
      destruct v as [|bv|n].
      - subst r. erewrite bind_throw in Mm by (eapply read_uint_no; eauto; discriminate). eapply throw_shows; eauto.
      - subst r. erewrite bind_throw in Mm by (eapply read_uint_no; eauto; destruct bv; discriminate). eapply throw_shows; eauto.
      - erewrite bind_eq in Mm by (eapply read_uint_ok; eauto).
        destruct w as [|bw|m0].
        + subst r. erewrite bind_throw in Mm by (eapply read_uint_no; eauto; discriminate). eapply throw_shows; eauto.
        + subst r. erewrite bind_throw in Mm by (eapply read_uint_no; eauto; destruct bw; discriminate). eapply throw_shows; eauto.
        + erewrite bind_eq in Mm by (eapply read_uint_ok; eauto).
          destruct (f n m0) as [[g d]|]; [|subst r; eapply throw_shows; eauto].
          destruct R as [-> Ld]. eapply write_shows; [exact Em| |].
          * cbn [small]. now apply N.ltb_lt.
          * unfold add_gas, modify in Mm. unfold bind in Mm at 1. exists (s_gas (gassed s) + g). exact Mm.
    Qed.
    Lemma is_true_of u : is_true (val_of u) = truth u.
    Proof. destruct u as [|[]|n]; reflexivity. Qed.
    Lemma val_bool c : val_of (Bool c) = vbool c. Proof. reflexivity. Qed.
    Lemma load_mem q s1 o : cell s1 (LMem q) = Some o -> load (mem_ref q o) s1 = Ok o s1.
    Proof. intros H. unfold load, mem_ref. erewrite bind_eq by reflexivity. rewrite H, N.eqb_refl. reflexivity. Qed.
    (** two variables are read *)
    Lemma two {A} (k : obj -> obj -> M A) : exists L R, o_val L = val_of v /\ o_val R = val_of w /\
      (bind (read_fail (phys sp a)) (fun L => bind (read_fail (phys sp b)) (fun R => bind (load (mem_ref (phys sp a) L)) (fun L => k L R)))) (gassed s)
      = k L R (gassed s).
    Proof.
      destruct Hv as (L & CL & DL & VL), Hw as (R & CR & DR & VR). exists L, R. split; [exact VL|]. split; [exact VR|].
      erewrite bind_eq by (apply read_ok; eauto). erewrite bind_eq by (apply read_ok; eauto). erewrite bind_eq by (apply load_mem; exact CL).
      reflexivity.
    Qed.
    Lemma logic_shows code flags fb ft r :
      N.testbit flags 0 = false -> N.testbit flags 1 = false -> N.testbit flags 2 = false ->
      let i := mk_instr code flags dst a b 0 in
      exec_op i = (bind (logic bk i fb ft) (fun _ => ret true)) ->
      r = (if N.testbit flags 6 then match v, w with Num n, Num m => Val (Num (fb n m)) | _, _ => Fail end
           else Val (Bool (ft (truth v) (truth w)))) ->
      (forall n m, n < TOP -> m < TOP -> fb n m < TOP) ->
      shows ok i s p r.
    Proof.
      intros F0 F1 F2 i E -> Sf.
      assert (Mm : exists L R, o_val L = val_of v /\ o_val R = val_of w /\ logic bk i fb ft (gassed s) =
        (if N.testbit flags 6 then match o_val L, o_val R with
           | VUint l, VUint r => write_val p (VUint (fb l r))
           | VBinary l, VBinary r =>
             if N.of_nat (List.length l) =? N.of_nat (List.length r) then EngineModel.assign bk p (VBinary (zip_with fb l r)) else throw
           | _, _ => throw
           end else write_val p (vbool (ft (is_true (o_val L)) (is_true (o_val R))))) (gassed s)).
      { unfold logic. rewrite (three _ code flags F0 F1 F2 i eq_refl). match goal with |- context [bind (read_fail _) (fun L => bind (read_fail _) (fun R => bind _ (fun L0 => @?k L0 R)))] =>
          destruct (two k) as (L & R & VL & VR & E2) end.
        exists L, R. split; auto. }
      destruct Mm as (L & R & VL & VR & Mm). rewrite VL, VR, !is_true_of in Mm. destruct (N.testbit flags 6).
      - destruct v as [|[]|n], w as [|[]|m]; try (eapply throw_shows; [eassumption|eassumption]).
        eapply write_shows; [exact E| |].
        + cbn [small] in *. apply N.ltb_lt. apply N.ltb_lt in Sv, Sw. auto.
        + exists (s_gas (gassed s)). exact Mm.
      - eapply write_shows; [exact E|reflexivity|]. exists (s_gas (gassed s)). exact Mm.
    Qed.
    Lemma cmp_shows code (any : bool) f r :
      let i := mk_instr code 0 dst a b 0 in
      exec_op i = (bind (cmp bk i any f) (fun _ => ret true)) ->
      r = (if negb any && negb (type_of (val_of v) =? type_of (val_of w)) then Fail
           else Val (Bool (f (compare (val_of v) (val_of w))))) ->
      shows ok i s p r.
    Proof.
      intros i E ->.
      assert (Mm : exists L R, o_val L = val_of v /\ o_val R = val_of w /\ cmp bk i any f (gassed s) =
        (if negb any && negb (type_of (o_val L) =? type_of (o_val R)) then throw
         else write_val p (vbool (f (compare (o_val L) (o_val R))))) (gassed s)).
      { unfold cmp. rewrite (three _ code 0 eq_refl eq_refl eq_refl i eq_refl). match goal with |- context [bind (read_fail _) (fun L => bind (read_fail _) (fun R => bind _ (fun L0 => @?k L0 R)))] =>
          destruct (two k) as (L & R & VL & VR & E2) end.
        exists L, R. split; auto. }
      destruct Mm as (L & R & VL & VR & Mm). rewrite VL, VR in Mm. destruct (_ && _).
      - eapply throw_shows; eauto.
      - eapply write_shows; [exact E|reflexivity|]. exists (s_gas (gassed s)). exact Mm.
    Qed.
    (** the count of a shift is read from [b], or is [b] *)
    Lemma shift_core code (left : bool) flags : N.testbit flags 0 = false -> N.testbit flags 1 = false ->
      code = (if left then OP_SHL else OP_SHR) ->
      let i := mk_instr code flags dst a b 0 in
      match w with
      | Num m => (m < 2 ^ 64 -> val_c bk i (gassed s) = Ok m (gassed s)) /\ exists m', val_c bk i (gassed s) = Ok m' (gassed s)
      | _ => val_c bk i (gassed s) = Throw (gassed s)
      end ->
      shows ok i s p (binary_op true (if left then OShl else OShr) v w).
    Proof.
      clear Hw Ab Sw. intros F0 F1 -> i Cn.
      assert (E : exec_op i = (bind (shift bk i (if left then shl else shr)) (fun _ => ret true))) by (destruct left; reflexivity).
      assert (F' : s_frames (gassed s) = (ip, sp) :: fs) by exact F.
      assert (Mm : shift bk i (if left then shl else shr) (gassed s) =
        bind (val_c bk i) (fun count => bind (read_uint bk (phys sp a)) (fun u => write_val p (VUint ((if left then shl else shr) u count)))) (gassed s)).
      { unfold shift, adr_a, adr_b, opflag, REF_A, REF_B. cbn [i i_flags i_a i_b]. rewrite F0, F1.
        erewrite bind_eq by (eapply deref_ok; eauto); erewrite bind_eq by (eapply deref_ok; eauto); reflexivity. }
      destruct w as [|bw|m].
      - replace (binary_op true (if left then OShl else OShr) v Null) with (@Fail value) by (destruct left, v as [|[]|]; reflexivity).
        eapply throw_shows; [exact E|]. rewrite Mm. apply bind_throw, Cn.
      - replace (binary_op true (if left then OShl else OShr) v (Bool bw)) with (@Fail value) by (destruct left, v as [|[]|]; reflexivity).
        eapply throw_shows; [exact E|]. rewrite Mm. apply bind_throw, Cn.
      - assert (Rd : match v with
                     | Num n => read_uint bk (phys sp a) (gassed s) = Ok n (gassed s)
                     | _ => read_uint bk (phys sp a) (gassed s) = Throw (gassed s)
                     end).
        { destruct v as [|bv|n]; [eapply read_uint_no; [exact Hv|discriminate]|eapply read_uint_no; [exact Hv|destruct bv; discriminate]|
            apply read_uint_ok; exact Hv]. }
        destruct (N.ltb_spec m (2 ^ 64)) as [Lm|Lm].
        + destruct Cn as [Cn _]. specialize (Cn Lm). rewrite (bind_eq _ _ _ _ _ Cn) in Mm. destruct v as [|bv|n].
          * rewrite (bind_throw _ _ _ _ Rd) in Mm. replace (binary_op _ _ _ _) with (@Fail value) by (destruct left; reflexivity). eapply throw_shows; eauto.
          * rewrite (bind_throw _ _ _ _ Rd) in Mm. replace (binary_op _ _ _ _) with (@Fail value) by (destruct left; reflexivity). eapply throw_shows; eauto.
          * rewrite (bind_eq _ _ _ _ _ Rd) in Mm. apply N.ltb_lt in Lm. cbn [small] in Sv. apply N.ltb_lt in Sv.
            destruct left; cbn [binary_op]; rewrite Lm; (eapply write_shows; [exact E| |]).
            -- cbn [small]. apply N.ltb_lt. destruct (m <? 256); [|reflexivity]. apply N.mod_lt. discriminate.
            -- exists (s_gas (gassed s)). rewrite Mm. cbn [val_of]. unfold shl. rewrite N.leb_antisym. destruct (m <? 256); cbn [negb]; [|reflexivity].
               rewrite N.shiftl_mul_pow2. reflexivity.
            -- cbn [small]. apply N.ltb_lt. eapply N.le_lt_trans; [apply N.div_le_upper_bound with (b := 2 ^ m); [apply N.pow_nonzero; discriminate|]|exact Sv].
               rewrite <- (N.mul_1_l n) at 1. apply N.mul_le_mono_r. pose proof (N.pow_nonzero 2 m). lia.
            -- exists (s_gas (gassed s)). rewrite Mm. cbn [val_of]. unfold shr. rewrite N.shiftr_div_pow2. destruct (N.leb_spec 256 m); [|reflexivity].
               rewrite N.div_small; [reflexivity|]. eapply N.lt_le_trans; [exact Sv|]. apply N.pow_le_mono_r; [discriminate|auto].
        + assert (Om : binary_op true (if left then OShl else OShr) v (Num m) = Open \/ binary_op true (if left then OShl else OShr) v (Num m) = Fail /\ forall n, v <> Num n).
          { apply N.ltb_ge in Lm. destruct left, v; cbn [binary_op]; rewrite ?Lm; auto; right; split; auto; discriminate. }
          destruct Om as [->|[-> Nv]]; [exact Logic.I|].
          destruct Cn as [_ Cx].
          destruct Cx as (m' & Cx). rewrite (bind_eq _ _ _ _ _ Cx) in Mm. destruct v as [|bv|n]; [| |now destruct (Nv n)];
            rewrite (bind_throw _ _ _ _ Rd) in Mm; eapply throw_shows; eauto.
    Qed.
    Lemma shift_shows (left : bool) :
      shows ok (mk_instr (if left then OP_SHL else OP_SHR) FLAG_REF_C dst a b 0) s p (binary_op true (if left then OShl else OShr) v w).
    Proof.
      assert (F' : s_frames (gassed s) = (ip, sp) :: fs) by exact F.
      apply shift_core; try reflexivity. unfold val_c, opflag. cbn [i_flags i_c]. change (N.testbit FLAG_REF_C REF_C) with true.
      unfold deref_value. destruct w as [|bw|m].
      - erewrite bind_eq by (eapply deref_ok; eauto). apply bind_throw. eapply read_uint_no; [exact Hw|discriminate].
      - erewrite bind_eq by (eapply deref_ok; eauto). apply bind_throw. eapply read_uint_no; [exact Hw|destruct bw; discriminate].
      - split.
        + intros Hm. erewrite bind_eq by (eapply deref_ok; eauto). erewrite bind_eq by (eapply read_uint_ok; exact Hw).
          rewrite N.mod_small by auto. reflexivity.
        + erewrite bind_eq by (eapply deref_ok; eauto). erewrite bind_eq by (eapply read_uint_ok; exact Hw). eexists. reflexivity.
    Qed.
    Lemma not_shows : forall i, i = mk_instr OP_NOT 0 dst a 0 0 -> shows ok i s p (Val (Bool (negb (truth v)))).
    Proof.
      intros i ->. assert (F' : s_frames (gassed s) = (ip, sp) :: fs) by exact F.
      eapply write_shows; [reflexivity|reflexivity|]. exists (s_gas (gassed s)).
      unfold adr_a, adr_b, opflag. cbn [i_flags i_a i_b]. change (N.testbit 0 REF_A) with false. change (N.testbit 0 REF_B) with false.
      change (N.testbit 0 BITWISE) with false. cbn [i_code]. change (OP_NOT =? 1) with false.
      erewrite bind_eq by (eapply deref_ok; eauto). erewrite bind_eq by (eapply deref_ok; eauto).
      destruct Hv as (o & C & D & V). erewrite bind_eq by (apply read_ok; eauto). rewrite V, is_true_of. reflexivity.
    Qed.
    Lemma flip_shows : forall i, i = mk_instr OP_NOT FLAG_BITWISE dst a 0 0 ->
      shows ok i s p (match v with Num n => Val (Num (TOP - 1 - n)) | _ => Fail end).
    Proof.
      intros i ->. assert (F' : s_frames (gassed s) = (ip, sp) :: fs) by exact F.
      destruct Hv as (o & C & D & V).
      assert (E : exists m, exec_op (mk_instr OP_NOT FLAG_BITWISE dst a 0 0) = bind m (fun _ => ret true) /\
        m (gassed s) = match val_of v with VUint n => write_val p (VUint (MAX256 - n)) (gassed s) | _ => Throw (gassed s) end).
      { eexists. split; [reflexivity|]. unfold adr_a, adr_b, opflag. cbn [i_flags i_a i_b].
        change (N.testbit FLAG_BITWISE REF_A) with false. change (N.testbit FLAG_BITWISE REF_B) with false. change (N.testbit FLAG_BITWISE BITWISE) with true.
        erewrite bind_eq by (eapply deref_ok; eauto). erewrite bind_eq by (eapply deref_ok; eauto). erewrite bind_eq by (apply read_ok; eauto).
        rewrite V. destruct v as [|[]|]; reflexivity. }
      destruct E as (m & E & R). destruct v as [|[]|n]; try exact (throw_shows _ _ _ E R).
      eapply write_shows; [exact E| |].
      - cbn [small]. apply N.ltb_lt. pose proof TOP_pos. lia.
      - exists (s_gas (gassed s)). exact R.
    Qed.
    Lemma pick_shows (least : bool) : forall i, i = mk_instr (if least then OP_MIN else OP_MAX) 0 dst a b 0 ->
      shows ok i s p (pick_op least v w).
    Proof.
      intros i ->. destruct least.
      - apply arith_shows with (f := fun L R => Some (0, if L <? R then L else R)); auto.
        cbn [small] in *. destruct v as [|bv|n], w as [|bw|m]; auto. apply N.ltb_lt in Sv, Sw. cbn [pick_op].
        destruct (N.ltb_spec n m); (split; [f_equal; f_equal; lia|lia]).
      - apply arith_shows with (f := fun L R => Some (0, if R <? L then L else R)); auto.
        cbn [small] in *. destruct v as [|bv|n], w as [|bw|m]; auto. apply N.ltb_lt in Sv, Sw. cbn [pick_op].
        destruct (N.ltb_spec m n); (split; [f_equal; f_equal; lia|lia]).
    Qed.
    Variable fl : flags.
    Hypothesis Ver : 1 <= s_version s.
    Lemma catch_flag code : catch (mk_instr code (math_flags fl) dst a b 0) = fl_catch fl.
    Proof. unfold catch, opflag, math_flags. cbn [i_flags]. destruct (fl_catch fl); reflexivity. Qed.
    Lemma math_bits n : n <= 2 -> N.testbit (math_flags fl) n = false.
    Proof. intros Hn. unfold math_flags. destruct (fl_catch fl); [|apply N.bits_0]. unfold FLAG_CATCH. assert (n = 0 \/ n = 1 \/ n = 2) as [->|[->| ->]] by lia; reflexivity. Qed.
    Lemma add_shows : forall i, i = mk_instr OP_ADD (math_flags fl) dst a b 0 -> shows ok i s p (binary_op (fl_catch fl) OAdd v w).
    Proof.
      intros i ->. apply arith_shows with (f := op_add (mk_instr OP_ADD (math_flags fl) dst a b 0)); auto using math_bits; try (apply math_bits; lia).
      destruct v as [|bv|n], w as [|bw|m]; auto. cbn [small binary_op] in *. apply N.ltb_lt in Sv, Sw.
      unfold op_add. rewrite catch_flag. fold TOP. rewrite (add_mod TOP) by auto.
      destruct (N.ltb_spec (n + m) TOP) as [H|H].
      - replace (n + m <? n) with false by (symmetry; apply N.ltb_ge; lia). rewrite andb_false_r. auto.
      - replace (n + m - TOP <? n) with true by (symmetry; apply N.ltb_lt; lia). rewrite andb_true_r.
        destruct (fl_catch fl); auto. split; auto. lia.
    Qed.
    Lemma sub_shows : forall i, i = mk_instr OP_SUB (math_flags fl) dst a b 0 -> shows ok i s p (binary_op (fl_catch fl) OSub v w).
    Proof.
      intros i ->. apply arith_shows with (f := op_sub (mk_instr OP_SUB (math_flags fl) dst a b 0)); auto using math_bits; try (apply math_bits; lia).
      destruct v as [|bv|n], w as [|bw|m]; auto. cbn [small binary_op] in *. apply N.ltb_lt in Sv, Sw.
      unfold op_sub. rewrite catch_flag. fold TOP. rewrite (sub_mod TOP) by auto.
      destruct (N.leb_spec m n) as [H|H].
      - replace (n <? n - m) with false by (symmetry; apply N.ltb_ge; lia). rewrite andb_false_r. split; auto. lia.
      - replace (n <? n + TOP - m) with true by (symmetry; apply N.ltb_lt; lia). rewrite andb_true_r.
        destruct (fl_catch fl); auto. split; auto. lia.
    Qed.
    Lemma mul_shows : forall i, i = mk_instr OP_MUL (math_flags fl) dst a b 0 -> shows ok i s p (binary_op (fl_catch fl) OMul v w).
    Proof.
      intros i ->. set (i := mk_instr OP_MUL (math_flags fl) dst a b 0).
      assert (Ex : exists m, exec_op i = (bind m (fun _ => ret true)) /\ m (gassed s) = arith bk i (op_mul (s_version s) i) (gassed s))
        by (eexists; split; reflexivity).
      assert (Tp := TOP_pos).
      assert (Rs : match v, w with
              | Num n, Num m => match op_mul (s_version s) i n m with
                                | Some (g, d) => binary_op (fl_catch fl) OMul v w = Val (Num d) /\ d < TOP
                                | None => binary_op (fl_catch fl) OMul v w = Fail end
              | _, _ => binary_op (fl_catch fl) OMul v w = Fail end).
      { destruct v as [|bv|n], w as [|bw|m]; auto. cbn [binary_op]. unfold op_mul. unfold i. rewrite catch_flag. fold TOP.
        apply N.leb_le in Ver. rewrite Ver. change MAX256 with (TOP - 1). rewrite (mul_over TOP) by auto.
        destruct (N.ltb_spec (n * m) TOP) as [H|H]; cbn [negb].
        - rewrite andb_false_r. rewrite N.mod_small by auto. auto.
        - rewrite andb_true_r. destruct (fl_catch fl); auto. split; auto. apply N.mod_lt. lia. }
      destruct Ex as (m & Em & Mm). unfold arith in Mm.
      rewrite (three _ OP_MUL (math_flags fl)) in Mm by (auto; apply math_bits; lia).
      assert (Hv' : holds (gassed s) (phys sp a) (val_of v)) by exact Hv.
      assert (Hw' : holds (gassed s) (phys sp b) (val_of w)) by exact Hw.
      destruct v as [|bv|n].
      - rewrite Rs. erewrite bind_throw in Mm by (eapply read_uint_no; eauto; discriminate). eapply throw_shows; eauto.
      - rewrite Rs. erewrite bind_throw in Mm by (eapply read_uint_no; eauto; destruct bv; discriminate). eapply throw_shows; eauto.
      - erewrite bind_eq in Mm by (eapply read_uint_ok; eauto).
        destruct w as [|bw|m0].
        + rewrite Rs. erewrite bind_throw in Mm by (eapply read_uint_no; eauto; discriminate). eapply throw_shows; eauto.
        + rewrite Rs. erewrite bind_throw in Mm by (eapply read_uint_no; eauto; destruct bw; discriminate). eapply throw_shows; eauto.
        + erewrite bind_eq in Mm by (eapply read_uint_ok; eauto).
          destruct (op_mul (s_version s) i n m0) as [[g d]|]; [|rewrite Rs; eapply throw_shows; eauto].
          destruct Rs as [-> Ld]. eapply write_shows; [exact Em| |].
          * cbn [small]. now apply N.ltb_lt.
          * unfold add_gas, modify in Mm. unfold bind in Mm at 1. exists (s_gas (gassed s) + g). exact Mm.
    Qed.
    Lemma div_shows : forall i, i = mk_instr OP_DIV (math_flags fl) dst a b 0 -> shows ok i s p (binary_op (fl_catch fl) ODiv v w).
    Proof.
      intros i ->. apply arith_shows with (f := op_div); auto using math_bits; try (apply math_bits; lia).
      destruct v as [|bv|n], w as [|bw|m]; auto. cbn [small binary_op] in *. apply N.ltb_lt in Sv, Sw.
      unfold op_div. destruct (N.eqb_spec m 0); auto. split; auto. eapply N.le_lt_trans; [|exact Sv]. apply N.div_le_upper_bound; auto.
      rewrite <- (N.mul_1_l n) at 1. apply N.mul_le_mono_r. lia.
    Qed.
    Lemma mod_shows : forall i, i = mk_instr OP_MOD (math_flags fl) dst a b 0 -> shows ok i s p (binary_op (fl_catch fl) OMod v w).
    Proof.
      intros i ->. apply arith_shows with (f := op_mod); auto using math_bits; try (apply math_bits; lia).
      destruct v as [|bv|n], w as [|bw|m]; auto. cbn [small binary_op] in *. apply N.ltb_lt in Sv, Sw.
      unfold op_mod. destruct (N.eqb_spec m 0); auto. split; auto. eapply N.lt_trans; [apply N.mod_lt; auto|exact Sw].
    Qed.
    Lemma compare_num n m : compare (VUint n) (VUint m) = if n =? m then 0%Z else if n <? m then (-1)%Z else 1%Z.
    Proof. reflexivity. Qed.
    Ltac cmp_cases :=
      destruct v as [|[]|n], w as [|[]|m]; try reflexivity; cbn [val_of binary_op order same]; rewrite compare_num;
      change (type_of (VUint n) =? type_of (VUint m)) with true; cbn [negb andb]; f_equal; f_equal;
      destruct (N.eqb_spec n m) as [->|]; [|destruct (N.ltb_spec n m)]; cbn;
      rewrite ?N.ltb_irrefl, ?N.leb_refl, ?N.eqb_refl; try reflexivity;
      first [apply N.ltb_lt; lia|apply N.ltb_ge; lia|apply N.leb_le; lia|apply N.leb_gt; lia|symmetry; first [apply N.ltb_lt; lia|apply N.ltb_ge; lia|apply N.leb_le; lia|apply N.leb_gt; lia]].
    Lemma bin_shows o : is_shift o = false ->
      forall i, i = mk_instr (code_of o) (op_flags fl (sym o) (code_of o)) dst a b 0 -> shows ok i s p (binary_op (fl_catch fl) o v w).
    Proof.
      intros Ns i ->. destruct o; try discriminate Ns.
      - now apply mul_shows.
      - now apply div_shows.
      - now apply mod_shows.
      - now apply add_shows.
      - now apply sub_shows.
      - apply (cmp_shows OP_CMP_LT false (fun z => z <? 0)%Z); [reflexivity|]. cmp_cases.
      - apply (cmp_shows OP_CMP_GT false (fun z => 0 <? z)%Z); [reflexivity|]. cmp_cases.
      - apply (cmp_shows OP_CMP_LTE false (fun z => z <=? 0)%Z); [reflexivity|]. cmp_cases.
      - apply (cmp_shows OP_CMP_GTE false (fun z => 0 <=? z)%Z); [reflexivity|]. cmp_cases.
      - apply (cmp_shows OP_CMP_NEQ true (fun z => negb (z =? 0)%Z)); [reflexivity|]. cmp_cases.
      - apply (cmp_shows OP_CMP_EQ true (fun z => z =? 0)%Z); [reflexivity|]. cmp_cases.
      - apply (logic_shows OP_AND FLAG_BITWISE N.land andb); try reflexivity; try exact land_top; destruct v as [|[]|], w as [|[]|]; reflexivity.
      - apply (logic_shows OP_XOR FLAG_BITWISE N.lxor xorb); try reflexivity; try exact lxor_top; destruct v as [|[]|], w as [|[]|]; reflexivity.
      - apply (logic_shows OP_OR FLAG_BITWISE N.lor orb); try reflexivity; try exact lor_top; destruct v as [|[]|], w as [|[]|]; reflexivity.
      - apply (logic_shows OP_AND 0 N.land andb); try reflexivity. exact land_top.
      - apply (logic_shows OP_XOR 0 N.lxor xorb); try reflexivity. exact lxor_top.
      - apply (logic_shows OP_OR 0 N.lor orb); try reflexivity. exact lor_top.
    Qed.
  End OP.
  (** with the optimisation of divisions *)
  Definition consts (KF : list val) (s : st) : Prop :=
    N.of_nat (List.length KF) < MEM_EXTERN /\ forall n v, nth_error KF n = Some v -> holds s (N.of_nat n) v.
  Lemma opt_shows (s : st) ip sp fs ok dst a b v w fl o K op f rhs K' KF :
    s_frames s = (ip, sp) :: fs -> ip + 1 < 2 ^ 64 -> addr_ok sp dst -> addr_ok sp a -> addr_ok sp b ->
    holds s (phys sp a) (val_of v) -> holds s (phys sp b) (val_of w) -> place ok s (phys sp dst) ->
    small v = true -> small w = true -> 1 <= s_version s -> is_shift o = false ->
    gopt fl (code_of o) (op_flags fl (sym o) (code_of o)) b K = (op, f, rhs, K') -> grows K' KF -> consts KF s ->
    shows ok (mk_instr op f dst a rhs 0) s (phys sp dst) (binary_op (fl_catch fl) o v w).
  Proof.
    intros F B Ad Aa Ab Hv Hw Pl Sv Sw Ver Ns G Gr [Lk Kn].
    assert (Df : shows ok (mk_instr (code_of o) (op_flags fl (sym o) (code_of o)) dst a b 0) s (phys sp dst) (binary_op (fl_catch fl) o v w))
      by (apply (bin_shows s ip sp fs ok dst a b v w); auto).
    unfold gopt in G. destruct (((code_of o =? OP_DIV) || (code_of o =? OP_MOD)) && (b <? N.of_nat (List.length K)) && fl_opt fl) eqn:C;
      [|injection G as <- <- <- <-; exact Df].
    apply andb_true_iff in C. destruct C as [C _]. apply andb_true_iff in C. destruct C as [Co Lb]. apply N.ltb_lt in Lb.
    destruct (nth_error K (N.to_nat b)) as [u|] eqn:Eu; [|injection G as <- <- <- <-; exact Df].
    destruct (pow2 u) as [n|] eqn:Ep; [|injection G as <- <- <- <-; exact Df].
    apply pow2_spec in Ep.
    assert (GrK : grows K KF).
    { destruct (code_of o =? OP_DIV); [injection G as <- <- <- <-; exact Gr|]. destruct (kaddr _ K) as [q K1] eqn:Ek. injection G as <- <- <- <-.
      eapply grows_trans; [eapply kaddr_grows; eauto|exact Gr]. }
    assert (Wn : w = Num (2 ^ n)).
    { pose proof (Kn _ _ (grows_nth _ _ _ _ GrK Eu)) as Hu. rewrite N2Nat.id in Hu. subst u.
      assert (phys sp b = b) as Pb.
      { unfold phys. replace (b <? MEM_STACK) with true; auto. symmetry. apply N.ltb_lt. pose proof (grows_length _ _ GrK). unfold MEM_STACK. lia. }
      rewrite Pb in Hw. destruct Hw as (o1 & C1 & _ & V1), Hu as (o2 & C2 & _ & V2). rewrite C1 in C2. injection C2 as <-.
      rewrite V1 in V2. destruct w as [|[]|m]; try discriminate. now injection V2 as ->. }
    assert (Np : 2 ^ n <> 0) by (apply N.pow_nonzero; discriminate).
    subst w. cbn [small] in Sw. apply N.ltb_lt in Sw.
    assert (Hn : n < 256) by (apply (N.pow_lt_mono_r_iff 2); [reflexivity|exact Sw]).
    destruct (code_of o =? OP_DIV) eqn:Cd.
    - assert (o = ODiv) as -> by (destruct o; try discriminate Cd; reflexivity). injection G as <- <- <- <-.
      assert (Sh : shows ok (mk_instr OP_SHR 0 dst a n 0) s (phys sp dst) (binary_op true OShr v (Num n))).
      { apply (shift_core s ip sp fs ok dst a n v (Num n)) with (left := false); auto. split; [intros _; reflexivity|eexists; reflexivity]. }
      cbn [binary_op] in *. destruct v as [|bv|m]; auto. replace (n <? 2 ^ 64) with true in Sh.
      + apply N.eqb_neq in Np. now rewrite Np.
      + symmetry. apply N.ltb_lt. eapply N.lt_trans; [exact Hn|reflexivity].
    - assert (o = OMod) as ->. { destruct o; try discriminate Cd; try discriminate Co; reflexivity. }
      destruct (kaddr _ K) as [q K1] eqn:Ek. injection G as <- <- <- <-.
      pose proof (kaddr_nth (VUint (2 ^ n - 1)) K q K1 eq_refl Ek) as Eq.
      pose proof (Kn _ _ (grows_nth _ _ _ _ Gr Eq)) as Hq. rewrite N2Nat.id in Hq.
      assert (Lq : q < MEM_EXTERN).
      { assert (N.to_nat q < List.length K1)%nat by (apply nth_error_Some; congruence). pose proof (grows_length _ _ Gr). lia. }
      assert (Lq' : q < MEM_STACK) by (unfold MEM_STACK; lia).
      assert (Pq : phys sp q = q) by (unfold phys; apply N.ltb_lt in Lq'; now rewrite Lq').
      assert (Sh : shows ok (mk_instr OP_AND FLAG_BITWISE dst a q 0) s (phys sp dst) (binary_op true OBitAnd v (Num (2 ^ n - 1)))).
      { apply (logic_shows s ip sp fs ok dst a q v (Num (2 ^ n - 1))) with (fb := N.land) (ft := andb); auto; try exact land_top.
        - now left.
        - now rewrite Pq.
        - cbn [small]. apply N.ltb_lt. lia.
        }
      cbn [binary_op] in *. destruct v as [|bv|m]; auto. rewrite land_pow2 in Sh. apply N.eqb_neq in Np. now rewrite Np.
  Qed.
End VM.
