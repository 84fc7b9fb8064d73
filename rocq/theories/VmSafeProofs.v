(** Instructions and programs that cannot touch a destroyed object *)
Require Import List Arith NArith ZArith Bool Lia.
From Verif Require Import BytesLib OrdLib VarModel InstrModel EngineModel EngineSpec ExecModel ExecSpec EngineProofs EngineUpper EngineVis.
Import ListNotations.
Open Scope N_scope.

Definition fr (s : st) := (s_code s, s_frames s).
(** [m] does not end in undefined behaviour, and leaves code and frames alone *)
Definition Pat {A} (m : M A) (s : st) : Prop :=
  match m s with Undefined _ => False | Ok _ s' => fr s' = fr s | _ => True end.
Definition PA {A} (m : M A) : Prop := forall s, Pat m s.

Lemma Pat_bind A B (m : M A) (k : A -> M B) s :
  Pat m s -> (forall a s1, m s = Ok a s1 -> fr s1 = fr s -> Pat (k a) s1) -> Pat (bind m k) s.
Proof.
  unfold Pat, bind. intros H K. destruct (m s) as [a s1|s1|s1|]; auto. specialize (K a s1 eq_refl H).
  destruct (k a s1); auto. congruence.
Qed.
Lemma PA_bind A B (m : M A) (k : A -> M B) : PA m -> (forall a, PA (k a)) -> PA (bind m k).
Proof. intros H K s. apply Pat_bind; [apply H|]. intros a s1 _ _. apply K. Qed.
Lemma PA_ret A (a : A) : PA (ret a). Proof. intros s. reflexivity. Qed.
Lemma PA_throw A : PA (@throw A). Proof. intros s. exact Logic.I. Qed.
Lemma PA_get : PA get. Proof. intros s. reflexivity. Qed.
Lemma PA_check_gas : PA check_gas. Proof. intros s. unfold Pat, check_gas. destruct (_ <? _); auto. Qed.
Lemma PA_add_gas n : PA (add_gas n). Proof. intros s. reflexivity. Qed.
Lemma fr_put l o s : fr (put_cell l o s) = fr s. Proof. destruct l; reflexivity. Qed.
Lemma PA_put l o : PA (put l o). Proof. intros s. apply (fr_put l o s). Qed.
Lemma PA_put_new l rc f v : PA (put_new l rc f v).
Proof. intros s. unfold Pat, put_new. apply (fr_put l _ (set_next_id _ s)). Qed.
Lemma PA_modify f : (forall s, fr (f s) = fr s) -> PA (modify f). Proof. intros H s. apply H. Qed.
Lemma PA_opt A (o : option A) : PA (opt o). Proof. destruct o; [apply PA_ret|apply PA_throw]. Qed.
Lemma PA_bin_ok n : PA (bin_ok n). Proof. unfold bin_ok. destruct (_ <=? _); [apply PA_throw|apply PA_ret]. Qed.
Lemma PA_to_addr d : PA (to_addr d). Proof. unfold to_addr. destruct (_ =? _); [apply PA_ret|apply PA_throw]. Qed.

Create HintDb pa.
#[export] Hint Resolve PA_ret PA_throw PA_get PA_check_gas PA_add_gas PA_put PA_put_new PA_opt PA_bin_ok PA_to_addr : pa.
Ltac pa :=
  repeat first
    [ progress intros
    | solve [eauto with pa nocore]
    | apply PA_bind
    | apply PA_modify; intros; reflexivity
    | match goal with
      | |- PA (match ?x with _ => _ end) => destruct x
      | |- PA (let '(_, _) := ?x in _) => destruct x
      end ].

Section S.
  Variable bk : backend.
  Variable x : ext.

  Lemma PA_charge_read v : PA (charge_read v). Proof. unfold charge_read. pa. Qed.
  Hint Resolve PA_charge_read : pa.
  Lemma PA_stor_read a : PA (stor_read bk a). Proof. unfold stor_read. pa. Qed.
  Lemma PA_stor_entry a k : PA (stor_entry bk a k). Proof. unfold stor_entry. pa. Qed.
  Lemma PA_stor_lookup v : PA (stor_lookup bk v). Proof. unfold stor_lookup. pa. Qed.
  Lemma PA_stor_balance c : PA (stor_balance bk c). Proof. unfold stor_balance. pa. Qed.
  Lemma PA_put_stored l v : PA (put_stored l v). Proof. unfold put_stored. pa. Qed.
  Hint Resolve PA_stor_read PA_stor_entry PA_stor_lookup PA_stor_balance PA_put_stored : pa.
  Lemma PA_read a mo : PA (read bk a mo). Proof. unfold read. pa. Qed.
  Hint Resolve PA_read : pa.
  Lemma PA_read_fail a : PA (read_fail bk a). Proof. unfold read_fail. pa. Qed.
  Lemma PA_read_entry a k : PA (read_entry bk a k). Proof. unfold read_entry. pa. Qed.
  Hint Resolve PA_read_fail PA_read_entry : pa.
  Lemma PA_read_entry_fail a k : PA (read_entry_fail bk a k). Proof. unfold read_entry_fail. pa. Qed.
  Lemma PA_read_uint a : PA (read_uint bk a). Proof. unfold read_uint. pa. Qed.
  Lemma PA_read_string a : PA (read_string bk a). Proof. unfold read_string. pa. Qed.
  Lemma PA_read_binary a : PA (read_binary bk a). Proof. unfold read_binary. pa. Qed.
  Lemma PA_addref a : PA (addref bk a). Proof. unfold addref. pa. Qed.
  Hint Resolve PA_read_entry_fail PA_read_uint PA_read_string PA_read_binary PA_addref : pa.
  Section ER.
    Variable er : loc -> M unit.
    Hypothesis er_pa : forall l, PA (er l).
    Hint Resolve er_pa : pa.
    Lemma PA_erase_mem_with a : PA (erase_mem_with bk er a). Proof. unfold erase_mem_with. pa. Qed.
    Hint Resolve PA_erase_mem_with : pa.
    Lemma PA_unref_with a : PA (unref_with bk er a). Proof. unfold unref_with. pa. Qed.
    Lemma PA_erase_keys_with a ks : PA (erase_keys_with er a ks).
    Proof. induction ks as [|k ks IH]; cbn [erase_keys_with]; pa. Qed.
    Hint Resolve PA_unref_with PA_erase_keys_with : pa.
    Lemma PA_erase_entries_with a : PA (erase_entries_with er a). Proof. unfold erase_entries_with. pa. Qed.
    Hint Resolve PA_erase_entries_with : pa.
    Lemma PA_clear_with o : PA (clear_with bk er o). Proof. unfold clear_with. pa. Qed.
  End ER.
  Lemma PA_erase_loc n : forall l, PA (erase_loc bk n l).
  Proof.
    induction n as [|n IH]; intros l; cbn [erase_loc]; pa.
    apply PA_clear_with; auto.
  Qed.
  Lemma PA_er l : PA (er bk l). Proof. apply PA_erase_loc. Qed.
  Lemma PA_erase_mem a : PA (erase_mem bk a). Proof. apply PA_erase_mem_with. apply PA_er. Qed.
  Lemma PA_unref a : PA (unref bk a). Proof. apply PA_unref_with. apply PA_er. Qed.
  Lemma PA_clear o : PA (clear bk o). Proof. apply PA_clear_with. apply PA_er. Qed.
  Hint Resolve PA_er PA_erase_mem PA_unref PA_clear : pa.
  Lemma PA_assign_loc l v : PA (assign_loc bk l v). Proof. unfold assign_loc. pa. Qed.
  Lemma PA_load_for_write a : PA (load_for_write bk a). Proof. unfold load_for_write. pa. Qed.
  Lemma PA_check_init a : PA (check_init a). Proof. unfold check_init. pa. Qed.
  Hint Resolve PA_assign_loc PA_load_for_write PA_check_init : pa.
  Lemma PA_assign a v : PA (assign bk a v). Proof. unfold assign. pa. Qed.
  Hint Resolve PA_assign : pa.

  (** a value that is no reference and no container *)
  Definition flat (v : val) : bool := match v with VRef _ | VArray _ _ | VMap _ => false | _ => true end.

  Lemma Pat_write_gen cont l r s src : load r s = Ok src s -> flat (o_val src) = true -> Pat (write_gen bk cont l r) s.
  Proof.
    intros L F. unfold write_gen. apply Pat_bind; [unfold Pat; rewrite L; reflexivity|]. intros a s1 E _. rewrite L in E. injection E as <- <-.
    destruct (match ref_loc r with Some l' => loc_eqb l l' | None => false end); [apply PA_ret|].
    destruct (f_deleted (o_fl src)); [apply PA_throw|].
    assert (Fr : PA match o_val src with VArray _ _ | VMap _ => cont src | v => assign_loc bk l v end).
    { destruct (o_val src); try discriminate; pa. }
    apply Pat_bind; [apply PA_get|]. intros s1 s2 E _. injection E as <- <-.
    destruct (cell s l) as [o|]; [|apply Fr]. destruct (f_const (o_fl o)); [apply PA_throw|].
    apply Pat_bind; [apply PA_put|]. intros u s3 _ _.
    set (o' := if f_deleted (o_fl o) then _ else o).
    destruct (o_val src); try discriminate; destruct (o_val o'); try apply Fr;
      repeat match goal with |- context [if ?b then _ else _] => destruct b end; first [apply Fr|apply PA_put|apply PA_ret].
  Qed.
  Lemma PA_write_val a v : flat v = true -> PA (write_val bk a v).
  Proof.
    intros F s. unfold write_val, write. apply Pat_bind; [apply PA_check_init|]. intros u s1 _ _.
    apply Pat_bind; [apply PA_load_for_write|]. intros u2 s2 _ _. eapply Pat_write_gen; [reflexivity|auto].
  Qed.
  Lemma PA_write_uint a n : PA (write_val bk a (VUint n)). Proof. apply PA_write_val; auto. Qed.
  Lemma PA_write_bin a n : PA (write_val bk a (VBinary n)). Proof. apply PA_write_val; auto. Qed.
  Lemma PA_write_nil a : PA (write_val bk a VNil). Proof. apply PA_write_val; auto. Qed.
  Lemma PA_write_bool a b : PA (write_val bk a (vbool b)). Proof. apply PA_write_val. destruct b; auto. Qed.
  Hint Resolve PA_write_uint PA_write_bin PA_write_nil PA_write_bool : pa.

  (** reading keeps what is in memory *)
  Definition keeps (s s' : st) : Prop := forall l o, cell s l = Some o -> cell s' l = Some o.
  Lemma keeps_refl s : keeps s s. Proof. intros l o. auto. Qed.
  Lemma keeps_trans s1 s2 s3 : keeps s1 s2 -> keeps s2 s3 -> keeps s1 s3.
  Proof. intros A B l o H. auto. Qed.
  Lemma put_stored_keeps l v s n s' : cell s l = None -> put_stored l v s = Ok n s' -> keeps s s' /\ exists o, cell s' l = Some o.
  Proof.
    intros C H. unfold put_stored in H. apply put_new_ok in H as ->. split.
    - intros l' o H. rewrite cell_put. destruct (loc_eqb_spec l' l) as [E|_]; [congruence|]. destruct l'; auto.
    - eexists. apply cell_put_same.
  Qed.
  Lemma stor_read_keeps a s v s' : stor_read bk a s = Ok v s' -> forall l, cell s' l = cell s l.
  Proof. intros H. apply stor_read_ok in H as ((n & ->) & _). intros []; auto. Qed.
  Lemma read_keeps a mo s o s' : read bk a mo s = Ok o s' -> keeps s s' /\ (forall c, o = Some c -> cell s' (LMem a) = Some c).
  Proof.
    unfold read. intros H. apply bind_ok in H as (s1 & s2 & E1 & H). injection E1 as <- <-.
    destruct (cell s (LMem a)) as [c|] eqn:C.
    - unfold ret in H. injection H as <- <-. split; [apply keeps_refl|]. intros c' Hc. destruct (f_deleted (o_fl c)); congruence.
    - destruct mo; [unfold ret in H; injection H as <- <-; split; [apply keeps_refl|discriminate]|].
      destruct (MEM_STATIC <=? a); [|unfold ret in H; injection H as <- <-; split; [apply keeps_refl|discriminate]].
      apply bind_ok in H as (v & s2 & E2 & H). pose proof (stor_read_keeps _ _ _ _ E2) as K.
      assert (K0 : keeps s s2) by (intros l o' Hl; rewrite K; auto).
      destruct v as [v|]; [|unfold ret in H; injection H as <- <-; split; [auto|discriminate]].
      apply bind_ok in H as (n & s3 & E3 & H). apply bind_ok in H as (s4 & s5 & E4 & H). injection E4 as <- <-. unfold ret in H. injection H as <- <-.
      destruct (put_stored_keeps _ _ _ _ _ (eq_trans (K (LMem a)) C) E3) as (K3 & _). split; [eapply keeps_trans; eauto|auto].
  Qed.
  Lemma read_fail_keeps a s o s' : read_fail bk a s = Ok o s' -> keeps s s' /\ cell s' (LMem a) = Some o.
  Proof.
    unfold read_fail. intros H. apply bind_ok in H as (o' & s1 & E & H). apply read_keeps in E as (K & C).
    destruct o'; [|discriminate]. unfold ret in H. injection H as <- <-. auto.
  Qed.
  Lemma read_uint_keeps a s n s' : read_uint bk a s = Ok n s' -> keeps s s'.
  Proof.
    unfold read_uint. intros H. apply bind_ok in H as (o & s1 & E & H). apply read_fail_keeps in E as (K & _).
    destruct (o_val o); try discriminate. unfold ret in H. injection H as <- <-. auto.
  Qed.
  Lemma load_mem a o s : cell s (LMem a) = Some o -> load (mem_ref a o) s = Ok o s.
  Proof. intros C. unfold mem_ref, load, bind, get. rewrite C, N.eqb_refl. reflexivity. Qed.
  Lemma load_ent a k o s : cell s (LEnt a k) = Some o -> load (ent_ref a k o) s = Ok o s.
  Proof. intros C. unfold ent_ref, load, bind, get. rewrite C, N.eqb_refl. reflexivity. Qed.
  Lemma lfw_keeps a s u s' : load_for_write bk a s = Ok u s' -> keeps s s'.
  Proof.
    unfold load_for_write. intros H. apply bind_ok in H as (s1 & s2 & E1 & H). injection E1 as <- <-.
    destruct (cell s (LMem a)) eqn:C; [unfold ret in H; injection H as _ <-; apply keeps_refl|].
    destruct (_ && _); [|unfold ret in H; injection H as _ <-; apply keeps_refl].
    apply bind_ok in H as (v & s2 & E2 & H). pose proof (stor_read_keeps _ _ _ _ E2) as K.
    assert (K0 : keeps s s2) by (intros l o' Hl; rewrite K; auto).
    destruct v as [v|]; [|unfold ret in H; injection H as _ <-; auto].
    apply bind_ok in H as (n & s3 & E3 & H). unfold ret in H. injection H as _ <-.
    destruct (put_stored_keeps _ _ _ _ _ (eq_trans (K (LMem a)) C) E3) as (K3 & _). eapply keeps_trans; eauto.
  Qed.
  (** writing a flat variable found in memory *)
  Lemma Pat_write_ref d src o s : cell s (LMem src) = Some o -> flat (o_val o) = true -> Pat (write bk d (mem_ref src o)) s.
  Proof.
    intros C F. unfold write. apply Pat_bind; [apply PA_check_init|]. intros u s1 E1 _. apply check_init_ok in E1 as ->.
    apply Pat_bind; [apply PA_load_for_write|]. intros u2 s2 E2 _. apply lfw_keeps in E2.
    apply Pat_write_gen with o; auto. apply load_mem. auto.
  Qed.
  Lemma PA_get_frame : PA get_frame. Proof. unfold get_frame. pa. Qed.
  Hint Resolve PA_get_frame : pa.
  Lemma PA_deref a : PA (deref bk a). Proof. unfold deref. pa. Qed.
  Hint Resolve PA_deref : pa.
  Lemma PA_deref_addr a f : PA (deref_addr bk a f). Proof. unfold deref_addr. pa. Qed.
  Hint Resolve PA_deref_addr : pa.
  Lemma PA_deref_value a f : PA (deref_value bk a f). Proof. unfold deref_value. pa. Qed.
  Hint Resolve PA_deref_value : pa.
  Lemma PA_adr_a i : PA (adr_a bk i). Proof. unfold adr_a. pa. Qed.
  Lemma PA_adr_b i : PA (adr_b bk i). Proof. unfold adr_b. pa. Qed.
  Lemma PA_adr_c i : PA (adr_c bk i). Proof. unfold adr_c. pa. Qed.
  Lemma PA_adr_d i : PA (adr_d bk i). Proof. unfold adr_d. pa. Qed.
  Lemma PA_val_a i : PA (val_a bk i). Proof. unfold val_a. pa. Qed.
  Lemma PA_val_b i : PA (val_b bk i). Proof. unfold val_b. pa. Qed.
  Lemma PA_val_c i : PA (val_c bk i). Proof. unfold val_c. pa. Qed.
  Lemma PA_val_d i : PA (val_d bk i). Proof. unfold val_d. pa. Qed.
  Hint Resolve PA_adr_a PA_adr_b PA_adr_c PA_adr_d PA_val_a PA_val_b PA_val_c PA_val_d : pa.

  Lemma PA_lookup_addr_ro key : PA (lookup_addr bk key true).
  Proof.
    intros s. unfold lookup_addr. apply Pat_bind; [apply PA_read_fail|]. intros o s1 E _. apply read_fail_keeps in E as (_ & C).
    unfold lookup. apply Pat_bind; [unfold Pat; rewrite (load_mem _ _ _ C); reflexivity|]. intros o2 s2 _ _.
    assert (H : PA (if type_of (o_val o2) =? 0 then throw else if MAX_KEY_BYTES <? val_bytes (o_val o2) then throw else
      s0 <- get ;; match find_key s0 (o_val o2) with
      | Some a => ret a
      | None => key0 <- stor_lookup bk (o_val o2) ;;
        (if negb (key0 =? 0) then o0 <- read_fail bk key0 ;; (if f_const (o_fl o0) && f_key (o_fl o0) then modify (fun s1 => set_keys ((o_val o0, key0) :: s_keys s1) s1) ;;; ret key0 else throw)
         else ret 0) end)) by pa.
    apply H.
  Qed.
  Hint Resolve PA_lookup_addr_ro : pa.
  Lemma PA_erase_entry a k : PA (erase_entry bk a k). Proof. unfold erase_entry. pa. Qed.
  Hint Resolve PA_erase_entry : pa.
  Lemma PA_erase_key a k : PA (erase_key bk a k). Proof. unfold erase_key. pa. Qed.
  Hint Resolve PA_erase_key : pa.
  Lemma PA_verase a k : PA (verase bk a k). Proof. unfold verase. pa. Qed.
  Lemma PA_vmemcpy d a b c : PA (vmemcpy bk d a b c). Proof. unfold vmemcpy. pa. Qed.
  Lemma PA_vsha256 d a : PA (vsha256 bk x d a). Proof. unfold vsha256. pa. Qed.
  Lemma PA_vverify d a b c : PA (vverify bk x d a b c). Proof. unfold vverify. pa. Qed.
  Lemma PA_alloc_bin d mk b : PA (alloc_bin bk d mk b). Proof. unfold alloc_bin. pa. Qed.
  Hint Resolve PA_verase PA_vmemcpy PA_vsha256 PA_vverify PA_alloc_bin : pa.
  Lemma PA_conv d src df sf : PA (conv bk x d src df sf).
  Proof.
    intros s. unfold conv. apply Pat_bind; [apply PA_read_fail|]. intros o s1 E _. apply read_fail_keeps in E as (_ & C).
    assert (W : flat (o_val o) = true -> Pat (write bk d (mem_ref src o)) s1) by (apply Pat_write_ref; auto).
    destruct (_ =? C_BOOL); [apply PA_write_bool|].
    destruct (o_val o); try (match goal with |- Pat ?m _ => assert (HP : PA m) by pa; apply HP end).
    - destruct (_ =? C_UINT); [apply W; auto|]. match goal with |- Pat ?m _ => assert (HP : PA m) by pa; apply HP end.
    - destruct (_ =? C_UINT); [match goal with |- Pat ?m _ => assert (HP : PA m) by pa; apply HP end|].
      destruct (_ =? C_STRING); [apply W; auto|]. match goal with |- Pat ?m _ => assert (HP : PA m) by pa; apply HP end.
    - destruct (_ =? C_UINT); [match goal with |- Pat ?m _ => assert (HP : PA m) by pa; apply HP end|].
      destruct (_ =? C_STRING); [match goal with |- Pat ?m _ => assert (HP : PA m) by pa; apply HP end|].
      destruct (_ =? C_BINARY); [apply W; auto|]. destruct (_ =? C_ADDRESS); [|apply PA_throw].
      destruct (negb _); [apply PA_throw|apply W; auto].
  Qed.
  Lemma PA_parse_memo a : PA (parse_memo bk a). Proof. unfold parse_memo. pa. Qed.
  Lemma PA_get_balance a : PA (get_balance bk a). Proof. unfold get_balance. pa. Qed.
  Hint Resolve PA_conv PA_parse_memo PA_get_balance : pa.
  Lemma PA_vsend a b c d : PA (vsend bk a b c d). Proof. unfold vsend. pa. Qed.
  Lemma PA_vmint a b c : PA (vmint bk a b c). Proof. unfold vmint. pa. Qed.
  Lemma PA_read_balance a b : PA (read_balance bk a b). Proof. unfold read_balance. pa. Qed.
  Lemma PA_arith i f : PA (arith bk i f). Proof. unfold arith. pa. Qed.
  Lemma PA_shift i f : PA (shift bk i f). Proof. unfold shift. pa. Qed.
  Hint Resolve PA_vsend PA_vmint PA_read_balance PA_arith PA_shift : pa.
  (** two operands are read, the first one is used again *)
  Lemma PA_two lhs rhs B (k : obj -> obj -> M B) : (forall L R, PA (k L R)) ->
    PA (L <- read_fail bk lhs ;; R <- read_fail bk rhs ;; L <- load (mem_ref lhs L) ;; k L R).
  Proof.
    intros H s. apply Pat_bind; [apply PA_read_fail|]. intros L s1 E1 _. apply read_fail_keeps in E1 as (_ & C1).
    apply Pat_bind; [apply PA_read_fail|]. intros R s2 E2 _. apply read_fail_keeps in E2 as (K & _). apply K in C1.
    apply Pat_bind; [unfold Pat; rewrite (load_mem _ _ _ C1); reflexivity|]. intros L2 s3 _ _. apply H.
  Qed.
  Lemma PA_logic i f g : PA (logic bk i f g).
  Proof. unfold logic. do 3 (apply PA_bind; [pa|intros ?]). apply PA_two. intros L R. pa. Qed.
  Lemma PA_cmp i b f : PA (cmp bk i b f).
  Proof. unfold cmp. do 3 (apply PA_bind; [pa|intros ?]). apply PA_two. intros L R. pa. Qed.
  Hint Resolve PA_logic PA_cmp : pa.

  Lemma PA_clear_addrs l : PA (clear_addrs bk l).
  Proof. induction l as [|a l IH]; cbn [clear_addrs]; pa. Qed.
  Hint Resolve PA_clear_addrs : pa.
  Lemma PA_clear_stack n : MEM_STACK + n <= MEM_STATIC -> PA (clear_stack bk n).
  Proof. intros H. unfold clear_stack. apply PA_bind; [pa|intros s]. apply N.leb_le in H. cbv zeta. rewrite H. pa. Qed.

  (** ** Whole instructions *)
  Variable remote_call : bytes -> bytes -> N -> M unit.
  Variable read_contract : addr -> bytes -> N -> M unit.
  Definition plain_codes : list N :=
    [0x00; 0x01; 0x20; 0x21; 0x22; 0x23; 0x24; 0x40; 0x41; 0x42; 0x43; 0x44; 0x45; 0x46; 0x47;
     0x60; 0x61; 0x62; 0x63; 0x64; 0x65; 0x80; 0x81; 0x84; 0xA0; 0xA2; 0xA3; 0xA4; 0xC0; 0xC1; 0xC2; 0xC3; 0xC4; 0xC7].
  Lemma PA_plain i : In (i_code i) plain_codes -> PA (exec_op bk x remote_call read_contract i).
  Proof.
    intros H. unfold exec_op. cbv zeta. unfold plain_codes in H.
    repeat (destruct H as [H|H]; [rewrite <- H; cbv [N.eqb Pos.eqb]; pa|]). destruct H.
  Qed.
End S.
