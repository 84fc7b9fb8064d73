(** What a program sees in memory: reading changes nothing, arithmetic writes the result and nothing else *)
Require Import List Arith NArith ZArith Bool Lia.
From Verif Require Import BytesLib OrdLib VarModel InstrModel EngineModel EngineSpec ExecSpec EngineProofs.
Import ListNotations.
Open Scope N_scope.

Section VIS.
  Variable bk : backend.
  Definition veq (s s' : st) : Prop := (forall b, visible bk s' b = visible bk s b) /\ rest s' = rest s.
  Lemma veq_refl s : veq s s. Proof. split; auto. Qed.
  Lemma veq_trans s1 s2 s3 : veq s1 s2 -> veq s2 s3 -> veq s1 s3.
  Proof. intros (A & B) (C & D). split; [intros; rewrite C; auto|congruence]. Qed.
  Lemma ok_inj A (a a' : A) s s' : Ok a s = Ok a' s' -> a = a' /\ s = s'.
  Proof. intros H. injection H. auto. Qed.
  Lemma bind_ok A B (m : M A) (k : A -> M B) s b s' : bind m k s = Ok b s' -> exists a s1, m s = Ok a s1 /\ k a s1 = Ok b s'.
  Proof. unfold bind. destruct (m s); try discriminate. eauto. Qed.
  Lemma charge_read_ok v s u s' : charge_read v s = Ok u s' ->
    exists n, s' = set_gas (s_gas s + n) s.
  Proof.
    unfold charge_read, bind, add_gas, modify, check_gas. destruct (_ <? _); intros H; [discriminate|].
    injection H as _ <-. eauto.
  Qed.
  Lemma veq_gas s n : veq s (set_gas n s).
  Proof. split; auto. Qed.
  Lemma visible_put s a o b :
    visible bk (put_cell (LMem a) o s) b = if b =? a then (if f_deleted (o_fl o) then None else Some (o_val o)) else visible bk s b.
  Proof.
    unfold visible. rewrite cell_put. cbn [loc_eqb]. destruct (N.eqb_spec b a); auto.
  Qed.
  Lemma put_new_ok l rc f v s id s' : put_new l rc f v s = Ok id s' ->
    s' = put_cell l (mk_obj (s_next_id s) rc f v) (set_next_id (s_next_id s + 1) s).
  Proof. unfold put_new. generalize (put_cell l (mk_obj (s_next_id s) rc f v) (set_next_id (s_next_id s + 1) s)). congruence. Qed.
  Lemma put_ok l o s u s' : put l o s = Ok u s' -> s' = put_cell l o s.
  Proof. unfold put, modify. generalize (put_cell l o s). congruence. Qed.
  Lemma stor_read_ok a s v s' : stor_read bk a s = Ok v s' ->
    (exists n, s' = set_gas n s) /\ v = read_ex (s_ro s) (cache_read bk (s_ram s) (s_contract s) a).
  Proof.
    unfold stor_read. intros H. apply bind_ok in H as (s1 & s2 & E1 & H). injection E1 as <- <-.
    apply bind_ok in H as (u & s3 & E2 & H). injection H as <- <-.
    apply charge_read_ok in E2 as (n & ->). split; eauto.
  Qed.
  Lemma read_ex_some ro v v' : read_ex ro v = Some v' ->
    exists u, v = Some u /\ f_deleted (sv_fl u) = false /\ f_deleted (sv_fl v') = false /\ sv_val v' = sv_val u.
  Proof.
    unfold read_ex. destruct v as [u|]; [|discriminate]. destruct (f_deleted (sv_fl u)) eqn:E; [discriminate|].
    intros [= <-]. exists u. repeat split; auto. simpl. destruct ro, (sv_fl u); auto.
  Qed.
  Lemma read_ex_none ro v : read_ex ro v = None -> v = None \/ exists u, v = Some u /\ f_deleted (sv_fl u) = true.
  Proof. unfold read_ex. destruct v as [u|]; auto. destruct (f_deleted (sv_fl u)) eqn:E; [eauto|discriminate]. Qed.
  Lemma veq_put_stored s a v v' id rc : cell s (LMem a) = None -> MEM_STATIC <= a ->
    cache_read bk (s_ram s) (s_contract s) a = Some v -> f_deleted (sv_fl v) = false ->
    f_deleted (sv_fl v') = false -> sv_val v' = sv_val v ->
    forall s1, (forall b, visible bk s1 b = visible bk s b) -> rest s1 = rest s ->
    veq s (put_cell (LMem a) (mk_obj id rc (sv_fl v') (sv_val v')) s1).
  Proof.
    intros C L R D D' V s1 V1 R1. split; [|simpl; auto].
    intros b. rewrite visible_put. cbn [o_fl o_val]. rewrite D'. destruct (N.eqb_spec b a) as [->|]; auto.
    unfold visible. rewrite C, (proj2 (N.leb_le _ _) L), R, D, V. auto.
  Qed.
  Lemma read_vis a mo s o s' : read bk a mo s = Ok o s' -> mo = false \/ a < MEM_STATIC \/ cell s (LMem a) <> None ->
    veq s s' /\ visible bk s a = option_map o_val o.
  Proof.
    unfold read. intros H HM. apply bind_ok in H as (s1 & s2 & E1 & H). injection E1 as <- <-.
    destruct (cell s (LMem a)) as [c|] eqn:C.
    - unfold ret in H. injection H as <- <-. split; [apply veq_refl|]. unfold visible. rewrite C. destruct (f_deleted (o_fl c)); auto.
    - destruct mo.
      + unfold ret in H. injection H as <- <-. destruct HM as [HM|[HM|HM]]; try congruence. split; [apply veq_refl|].
        unfold visible. rewrite C. destruct (N.leb_spec MEM_STATIC a); auto. lia.
      + destruct (N.leb_spec MEM_STATIC a).
        * apply bind_ok in H as (v & s3 & E2 & H). apply stor_read_ok in E2 as ((n & ->) & ->).
          destruct (read_ex _ _) as [v'|] eqn:RX.
          -- apply read_ex_some in RX as (u & R & D & D' & V). apply bind_ok in H as (id & s4 & E3 & H).
             apply put_new_ok in E3 as ->. unfold bind, get, ret in H. rewrite cell_put_same in H. apply ok_inj in H as (<- & <-).
             split.
             ++ apply (veq_put_stored s a) with (1 := C) (3 := R); auto.
             ++ unfold visible. rewrite C, (proj2 (N.leb_le _ _) H0), R, D. simpl. congruence.
          -- unfold ret in H. injection H as <- <-. split; [apply veq_gas|].
             unfold visible. rewrite C. destruct (MEM_STATIC <=? a); auto.
             apply read_ex_none in RX as [->|(u & -> & ->)]; auto.
        * unfold ret in H. injection H as <- <-. split; [apply veq_refl|]. unfold visible. rewrite C.
          destruct (N.leb_spec MEM_STATIC a); auto. lia.
  Qed.
  Lemma read_fail_vis a s o s' : read_fail bk a s = Ok o s' -> veq s s' /\ visible bk s a = Some (o_val o).
  Proof.
    unfold read_fail. intros H. apply bind_ok in H as (o' & s1 & E & H). apply read_vis in E; auto. destruct E as (V & E).
    destruct o'; [|discriminate]. unfold ret in H. injection H as <- <-. auto.
  Qed.
  Lemma read_uint_vis a s n s' : read_uint bk a s = Ok n s' -> veq s s' /\ visible bk s a = Some (VUint n).
  Proof.
    unfold read_uint. intros H. apply bind_ok in H as (o & s1 & E & H). apply read_fail_vis in E as (V & E).
    destruct (o_val o); try discriminate. unfold ret in H. injection H as <- <-. auto.
  Qed.
  Lemma operand_veq s s' a f : veq s s' -> operand bk s' a f = operand bk s a f.
  Proof.
    intros (V & R). unfold operand, base_addr. replace (s_frames s') with (s_frames s) by (unfold rest in R; congruence).
    fold (base_addr s a). destruct (base_addr s a); auto. rewrite V. auto.
  Qed.
  Lemma deref_addr_vis a f s t s' : deref_addr bk a f s = Ok t s' -> veq s s' /\ operand bk s a f = Some t.
  Proof.
    unfold deref_addr. intros H. apply bind_ok in H as (b & s1 & E & H).
    assert (s1 = s /\ base_addr s a = Some b) as (-> & O).
    { unfold base_addr. destruct (_ && _); [|unfold ret in E; injection E as <- <-; auto].
      unfold get_frame in E. apply bind_ok in E as (fr & s2 & E1 & E). apply bind_ok in E1 as (s3 & s4 & E3 & E1).
      injection E3 as <- <-. destruct (s_frames s) as [|f0 l]; [discriminate|]. unfold ret in E1. injection E1 as <- <-.
      destruct (_ <=? _); [discriminate|]. unfold ret in E. injection E as <- <-. auto. }
    destruct f.
    - unfold deref in H. apply bind_ok in H as (o & s2 & E1 & H). apply read_fail_vis in E1 as (V & E1).
      unfold ret in H. injection H as <- <-. split; auto. unfold operand. rewrite O, E1. destruct (o_val o); auto.
    - unfold ret in H. injection H as <- <-. split; [apply veq_refl|]. unfold operand. rewrite O. auto.
  Qed.
  Lemma load_for_write_vis a s u s' : load_for_write bk a s = Ok u s' -> veq s s'.
  Proof.
    unfold load_for_write. intros H. apply bind_ok in H as (s1 & s2 & E1 & H). injection E1 as <- <-.
    destruct (cell s (LMem a)) eqn:C; [unfold ret in H; injection H as _ <-; apply veq_refl|].
    destruct (N.leb_spec MEM_STATIC a); simpl in H; [|unfold ret in H; injection H as _ <-; apply veq_refl].
    destruct (a <? s_heap_base s); [|unfold ret in H; injection H as _ <-; apply veq_refl].
    apply bind_ok in H as (v & s3 & E2 & H). apply stor_read_ok in E2 as ((n & ->) & ->).
    destruct (read_ex _ _) as [v'|] eqn:RX.
    - apply read_ex_some in RX as (w & R & D & D' & V). apply bind_ok in H as (id & s4 & E3 & H).
      apply put_new_ok in E3 as ->. apply ok_inj in H as (_ & <-).
      apply (veq_put_stored s a) with (1 := C) (3 := R); auto.
    - apply ok_inj in H as (_ & <-). apply veq_gas.
  Qed.
  Lemma check_init_ok a s u s' : check_init a s = Ok u s' -> s' = s.
  Proof. unfold check_init, bind, get. destruct (_ && _); [discriminate|]. unfold ret. congruence. Qed.
  Lemma assign_loc_vis a n s u s' : assign_loc bk (LMem a) (VUint n) s = Ok u s' -> visible bk s' a = Some (VUint n).
  Proof.
    unfold assign_loc. intros H. apply bind_ok in H as (s1 & s2 & E1 & H). injection E1 as <- <-.
    apply bind_ok in H as (u1 & s3 & _ & H). apply bind_ok in H as (u2 & s4 & _ & H). apply bind_ok in H as (u3 & s5 & _ & H).
    apply bind_ok in H as (u4 & s6 & E & H). apply ok_inj in H as (_ & <-).
    destruct (match cell s (LMem a) with Some o => (o_rc o, o_fl o) | None => (0, no_fl) end) as (rc & fl) eqn:X.
    apply put_new_ok in E as ->. rewrite visible_put, N.eqb_refl. cbn [o_fl o_val]. destruct fl; auto.
  Qed.
  Lemma write_uint_vis a n s u s' : write_val bk a (VUint n) s = Ok u s' -> visible bk s' a = Some (VUint n).
  Proof.
    unfold write_val, write. intros H. apply bind_ok in H as (u1 & s1 & E1 & H). apply check_init_ok in E1 as ->.
    apply bind_ok in H as (u2 & s2 & E2 & H). clear E2. unfold write_gen in H. cbn [load ref_loc] in H.
    apply bind_ok in H as (src & s3 & E3 & H). unfold ret in E3. injection E3 as <- <-. cbn [o_fl o_val f_deleted no_fl] in H.
    apply bind_ok in H as (s3 & s4 & E4 & H). injection E4 as <- <-.
    destruct (cell s2 (LMem a)) as [o|] eqn:C; [|eapply assign_loc_vis; eauto].
    destruct (f_const (o_fl o)); [discriminate|].
    set (o1 := if f_deleted (o_fl o) then _ else o) in H.
    assert (f_deleted (o_fl o1) = false) as D1. { unfold o1. destruct (f_deleted (o_fl o)) eqn:D; auto. }
    apply bind_ok in H as (u3 & s3 & E3 & H). apply put_ok in E3 as ->.
    destruct (o_val o1) as [| | | |m| | | |] eqn:V1; cbn [is_simple andb] in H; try (eapply assign_loc_vis; eauto; fail).
    destruct (N.eqb_spec n m) as [->|NE].
    - apply ok_inj in H as (_ & <-). rewrite visible_put, N.eqb_refl, D1. congruence.
    - apply put_ok in H as ->. rewrite visible_put, N.eqb_refl.
      destruct o1 as [? ? []]; cbn in *. rewrite D1. auto.
  Qed.
  Lemma arith_vis i f s u s' : arith bk i f s = Ok u s' ->
    exists dst lhs rhs L R g D,
      operand bk s (i_a i) (opflag i REF_A) = Some dst /\ operand bk s (i_b i) (opflag i REF_B) = Some lhs /\
      operand bk s (i_c i) (opflag i REF_C) = Some rhs /\
      visible bk s lhs = Some (VUint L) /\ visible bk s rhs = Some (VUint R) /\ f L R = Some (g, D) /\
      visible bk s' dst = Some (VUint D).
  Proof.
    unfold arith, adr_a, adr_b, adr_c. intros H.
    apply bind_ok in H as (dst & s1 & E1 & H). apply bind_ok in H as (lhs & s2 & E2 & H). apply bind_ok in H as (rhs & s3 & E3 & H).
    apply bind_ok in H as (L & s4 & E4 & H). apply bind_ok in H as (R & s5 & E5 & H).
    apply deref_addr_vis in E1 as (V1 & O1). apply deref_addr_vis in E2 as (V2 & O2). apply deref_addr_vis in E3 as (V3 & O3).
    apply read_uint_vis in E4 as (V4 & R4). apply read_uint_vis in E5 as (V5 & R5).
    assert (veq s s2) as W2 by eauto using veq_trans. assert (veq s s3) as W3 by eauto using veq_trans.
    assert (veq s s4) as W4 by eauto using veq_trans.
    rewrite (operand_veq s s1) in O2 by auto. rewrite (operand_veq s s2) in O3 by auto.
    rewrite (proj1 W3) in R4. rewrite (proj1 W4) in R5.
    destruct (f L R) as [(g & D)|] eqn:F; [|discriminate].
    apply bind_ok in H as (u1 & s6 & E6 & H). apply write_uint_vis in H.
    exists dst, lhs, rhs, L, R, g, D. auto 10.
  Qed.
  Lemma next_vis s u s' : next s = Ok u s' -> forall b, visible bk s' b = visible bk s b.
  Proof.
    unfold next, get_frame, jump. intros H b. apply bind_ok in H as (f & s1 & E1 & H). apply bind_ok in E1 as (s2 & s3 & E2 & E1).
    injection E2 as <- <-. destruct (s_frames s) eqn:F; [discriminate|]. unfold ret in E1. injection E1 as <- <-.
    apply bind_ok in H as (s2 & s3 & E2 & H). injection E2 as <- <-. rewrite F in H. destruct p. unfold modify in H. injection H as _ <-. auto.
  Qed.
End VIS.
