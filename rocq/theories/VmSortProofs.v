(** The entries of the containers in the memory of an engine are kept in the order of their keys, one per key *)
Require Import List Arith NArith ZArith Bool Lia.
From Verif Require Import BytesLib OrdLib VarModel InstrModel EngineModel ExecModel EngineProofs.
Import ListNotations.
Open Scope N_scope.

Definition sorted_ent (s : st) : Prop := asorted entcmp (s_ent s).
Definition kept (s s1 : st) : Prop := (sorted_ent s -> sorted_ent s1) /\ s_contract s1 = s_contract s.
Lemma kept_refl s : kept s s. Proof. split; auto. Qed.
Lemma kept_trans s1 s2 s3 : kept s1 s2 -> kept s2 s3 -> kept s1 s3.
Proof. intros (A & B) (C & D). split; auto. congruence. Qed.
Definition so {A} (m : M A) : Prop := forall s a s1, m s = Ok a s1 -> kept s s1.
Lemma so_ret A (a : A) : so (ret a). Proof. intros s b s1 [= <- <-]. apply kept_refl. Qed.
Lemma so_throw A : so (@throw A). Proof. intros s b s1 [=]. Qed.
Lemma so_undefined A : so (@undefined A). Proof. intros s b s1 [=]. Qed.
Lemma so_fuel A : @so A (fun _ => Fuel). Proof. intros s b s1 [=]. Qed.
Lemma so_bind A B (m : M A) (k : A -> M B) : so m -> (forall a, so (k a)) -> so (bind m k).
Proof.
  intros H K s b s2. unfold bind. destruct (m s) as [a s1| | |] eqn:E; try discriminate. intros E2.
  eapply kept_trans; [exact (H s a s1 E)|exact (K a s1 b s2 E2)].
Qed.
Lemma so_get A (k : st -> M A) : (forall s, so (k s)) -> so (bind get k).
Proof. intros H s a s1 E. unfold bind, get in E. exact (H s s a s1 E). Qed.
Lemma so_modify f : (forall s, s_ent (f s) = s_ent s) -> (forall s, s_contract (f s) = s_contract s) -> so (modify f).
Proof. intros H K s a s1 [= <- <-]. split; auto. unfold sorted_ent. rewrite H. auto. Qed.
Lemma so_check_gas : so check_gas.
Proof. intros s a s1. unfold check_gas. destruct (_ <? _); intros [= <- <-]. apply kept_refl. Qed.
Lemma so_add_gas n : so (add_gas n). Proof. apply so_modify; auto. Qed.
Lemma put_sorted l o s : kept s (put_cell l o s).
Proof. unfold kept, sorted_ent. destruct l; simpl; auto. split; auto. intros. apply aset_sorted; auto. exact entcmp_total. Qed.
Lemma so_put l o : so (put l o). Proof. intros s a s1 [= <- <-]. apply put_sorted. Qed.
Lemma so_put_new l rc f v : so (put_new l rc f v).
Proof. intros s a s1 [= <- <-]. eapply kept_trans; [|apply put_sorted]. split; auto. Qed.
Create HintDb so.
#[global] Hint Resolve so_ret so_throw so_undefined so_fuel so_check_gas so_add_gas so_put so_put_new : so.
Ltac so_step :=
  match goal with
  | |- so (bind get _) => apply so_get; intros
  | |- so (bind _ _) => apply so_bind; [|intros]
  | |- so (modify _) => apply so_modify; intros; reflexivity
  | |- so (let '(_, _) := ?b in _) => destruct b
  | |- so (if ?b then _ else _) => destruct b
  | |- so (match ?b with _ => _ end) => destruct b
  | |- so _ => solve [auto with so]
  end.
Ltac so_auto := repeat (cbv beta zeta; so_step).

Section GAS.
  Variable bk : backend.
  Variable x : ext.
  Lemma so_load r : so (load r).
  Proof. unfold load. so_auto. Qed.
  Lemma so_charge_read v : so (charge_read v).
  Proof. unfold charge_read. so_auto. Qed.
  Hint Resolve so_load so_charge_read : so.
  Lemma so_stor_read a : so (stor_read bk a).
  Proof. unfold stor_read. so_auto. Qed.
  Lemma so_stor_entry a k : so (stor_entry bk a k).
  Proof. unfold stor_entry. so_auto. Qed.
  Lemma so_stor_lookup v : so (stor_lookup bk v).
  Proof. unfold stor_lookup. so_auto. Qed.
  Lemma so_stor_balance c : so (stor_balance bk c).
  Proof. unfold stor_balance. so_auto. Qed.
  Lemma so_put_stored l v : so (put_stored l v).
  Proof. unfold put_stored. so_auto. Qed.
  Hint Resolve so_stor_read so_stor_entry so_stor_lookup so_stor_balance so_put_stored : so.
  Lemma so_read a b : so (read bk a b).
  Proof. unfold read. so_auto. Qed.
  Hint Resolve so_read : so.
  Lemma so_read_fail a : so (read_fail bk a).
  Proof. unfold read_fail. so_auto. Qed.
  Lemma so_read_entry a k : so (read_entry bk a k).
  Proof. unfold read_entry. so_auto. Qed.
  Hint Resolve so_read_fail so_read_entry : so.
  Lemma so_read_entry_fail a k : so (read_entry_fail bk a k).
  Proof. unfold read_entry_fail. so_auto. Qed.
  Lemma so_read_uint a : so (read_uint bk a).
  Proof. unfold read_uint. so_auto. Qed.
  Lemma so_read_string a : so (read_string bk a).
  Proof. unfold read_string. so_auto. Qed.
  Lemma so_read_binary a : so (read_binary bk a).
  Proof. unfold read_binary. so_auto. Qed.
  Lemma so_to_addr d : so (to_addr d).
  Proof. unfold to_addr. so_auto. Qed.
  Lemma so_addref a : so (addref bk a).
  Proof. unfold addref. so_auto. Qed.
  Hint Resolve so_read_entry_fail so_read_uint so_read_string so_read_binary so_to_addr so_addref : so.
  Section ERASE.
    Variable er : loc -> M unit.
    Hypothesis so_er : forall l, so (er l).
    Hint Resolve so_er : so.
    Lemma so_erase_mem_with a : so (erase_mem_with bk er a).
    Proof. unfold erase_mem_with. so_auto. Qed.
    Hint Resolve so_erase_mem_with : so.
    Lemma so_unref_with a : so (unref_with bk er a).
    Proof. unfold unref_with. so_auto. Qed.
    Lemma so_erase_keys_with a ks : so (erase_keys_with er a ks).
    Proof. induction ks; cbn [erase_keys_with]; so_auto. Qed.
    Hint Resolve so_unref_with so_erase_keys_with : so.
    Lemma so_erase_entries_with a : so (erase_entries_with er a).
    Proof. unfold erase_entries_with. so_auto. Qed.
    Hint Resolve so_erase_entries_with : so.
    Lemma so_clear_with o : so (clear_with bk er o).
    Proof. unfold clear_with. so_auto. Qed.
  End ERASE.
  Lemma so_erase_loc n : forall l, so (erase_loc bk n l).
  Proof.
    induction n as [|n IH]; intros l; cbn [erase_loc]; so_auto. now apply so_clear_with.
  Qed.
  Lemma so_er l : so (er bk l). Proof. apply so_erase_loc. Qed.
  Lemma so_erase_mem a : so (erase_mem bk a). Proof. apply so_erase_mem_with, so_er. Qed.
  Lemma so_unref a : so (unref bk a). Proof. apply so_unref_with, so_er. Qed.
  Lemma so_clear o : so (clear bk o). Proof. apply so_clear_with, so_er. Qed.
  Hint Resolve so_er so_erase_mem so_unref so_clear : so.
  Lemma so_assign_loc l v : so (assign_loc bk l v).
  Proof. unfold assign_loc. so_auto. Qed.
  Lemma so_load_for_write a : so (load_for_write bk a).
  Proof. unfold load_for_write. so_auto. Qed.
  Lemma so_check_init a : so (check_init a).
  Proof. unfold check_init. so_auto. Qed.
  Hint Resolve so_assign_loc so_load_for_write so_check_init : so.
  Lemma so_assign a v : so (assign bk a v).
  Proof. unfold assign. so_auto. Qed.
  Hint Resolve so_assign : so.
  Lemma so_write_gen cont l r : (forall o, so (cont o)) -> so (write_gen bk cont l r).
  Proof. intros. unfold write_gen. so_auto. Qed.
  Lemma so_write_ent l r : so (write_ent bk l r).
  Proof. apply so_write_gen. intros. apply so_throw. Qed.
  Hint Resolve so_write_ent : so.
  Lemma so_write_entry a k r : so (write_entry bk a k r).
  Proof. unfold write_entry. so_auto. Qed.
  Hint Resolve so_write_entry : so.
  Lemma so_copy_array d r n : forall i, so (copy_array bk d r n i).
  Proof. induction n; intros; cbn [copy_array]; so_auto. Qed.
  Lemma so_copy_map d r ks : so (copy_map bk d r ks).
  Proof. induction ks; intros; cbn [copy_map]; so_auto. Qed.
  Hint Resolve so_copy_array so_copy_map : so.
  Lemma so_write_container d r o : so (write_container bk d r o).
  Proof. unfold write_container. so_auto. Qed.
  Hint Resolve so_write_container : so.
  Lemma so_write a r : so (write bk a r).
  Proof. unfold write. so_auto. apply so_write_gen. auto with so. Qed.
  Hint Resolve so_write : so.
  Lemma so_write_val a v : so (write_val bk a v).
  Proof. apply so_write. Qed.
  Lemma so_write_opt a v : so (write_opt bk a v).
  Proof. apply so_write. Qed.
  Hint Resolve so_write_val so_write_opt : so.
  Lemma so_alloc : so (alloc bk).
  Proof. unfold alloc. so_auto. Qed.
  Hint Resolve so_alloc : so.
  Lemma so_lookup r b : so (lookup bk r b).
  Proof. unfold lookup. so_auto. Qed.
  Hint Resolve so_lookup : so.
  Lemma so_lookup_addr a b : so (lookup_addr bk a b).
  Proof. unfold lookup_addr. so_auto. Qed.
  Lemma so_push_back_ref d r : so (push_back_ref bk d r).
  Proof. unfold push_back_ref. so_auto. Qed.
  Hint Resolve so_lookup_addr so_push_back_ref : so.
  Lemma so_push_back d s : so (push_back bk d s).
  Proof. unfold push_back. so_auto. Qed.
  Lemma so_erase_entry a k : so (erase_entry bk a k).
  Proof. unfold erase_entry. so_auto. Qed.
  Hint Resolve so_push_back so_erase_entry : so.
  Lemma so_pop_back d s : so (pop_back bk d s).
  Proof. unfold pop_back. so_auto. Qed.
  Lemma so_read_key a k : so (read_key bk a k).
  Proof. unfold read_key. so_auto. Qed.
  Lemma so_erase_key a k : so (erase_key bk a k).
  Proof. unfold erase_key. so_auto. Qed.
  Lemma so_copy d s : so (copy bk d s).
  Proof. unfold copy. so_auto. Qed.
  Lemma so_clone d s : so (clone bk d s).
  Proof. unfold clone. so_auto. Qed.
  Hint Resolve so_pop_back so_read_key so_erase_key so_copy so_clone : so.
  Lemma so_vget d a k h : so (vget bk d a k h).
  Proof. unfold vget. so_auto. Qed.
  Lemma so_vset d a k : so (vset bk d a k).
  Proof. unfold vset. so_auto. Qed.
  Lemma so_verase a k : so (verase bk a k).
  Proof. unfold verase. so_auto. Qed.
  Lemma so_concat_array d r n : forall i, so (concat_array bk d r n i).
  Proof. induction n; intros; cbn [concat_array]; so_auto. Qed.
  Lemma so_bin_ok n : so (bin_ok n).
  Proof. unfold bin_ok. so_auto. Qed.
  Hint Resolve so_vget so_vset so_verase so_concat_array so_bin_ok : so.
  Lemma so_concat d l r : so (concat bk d l r).
  Proof. unfold concat. so_auto. Qed.
  Lemma so_vmemcpy d s c o : so (vmemcpy bk d s c o).
  Proof. unfold vmemcpy. so_auto. Qed.
  Lemma so_vsha256 d s : so (vsha256 bk x d s).
  Proof. unfold vsha256. so_auto. Qed.
  Lemma so_vverify d m p s : so (vverify bk x d m p s).
  Proof. unfold vverify. so_auto. Qed.
  Lemma so_opt A (o : option A) : so (opt o).
  Proof. unfold opt. so_auto. Qed.
  Lemma so_alloc_bin d mk b : so (alloc_bin bk d mk b).
  Proof. unfold alloc_bin. so_auto. Qed.
  Hint Resolve so_concat so_vmemcpy so_vsha256 so_vverify so_opt so_alloc_bin : so.
  Lemma so_conv d s df sf : so (conv bk x d s df sf).
  Proof. unfold conv. so_auto. Qed.
  Lemma so_parse_memo a : so (parse_memo bk a).
  Proof. unfold parse_memo. so_auto. Qed.
  Lemma so_get_balance c : so (get_balance bk c).
  Proof. unfold get_balance. so_auto. Qed.
  Hint Resolve so_conv so_parse_memo so_get_balance : so.
  Lemma so_vsend a v c m : so (vsend bk a v c m).
  Proof. unfold vsend. so_auto. Qed.
  Lemma so_vmint a v m : so (vmint bk a v m).
  Proof. unfold vmint. so_auto. Qed.
  Lemma so_read_balance d c : so (read_balance bk d c).
  Proof. unfold read_balance. so_auto. Qed.
  Lemma so_get_frame : so get_frame.
  Proof. unfold get_frame. so_auto. Qed.
  Lemma so_jump ip : so (jump ip).
  Proof. unfold jump. so_auto. Qed.
  Hint Resolve so_vsend so_vmint so_read_balance so_get_frame so_jump : so.
  Lemma so_call ip sp : so (call ip sp).
  Proof. unfold call. so_auto. Qed.
  Lemma so_clear_addrs l : so (clear_addrs bk l).
  Proof. induction l; cbn [clear_addrs]; so_auto. Qed.
  Hint Resolve so_call so_clear_addrs : so.
  Lemma so_clear_stack o : so (clear_stack bk o).
  Proof. unfold clear_stack. so_auto. Qed.
  Hint Resolve so_clear_stack : so.
  Lemma so_do_ret : so (do_ret bk).
  Proof. unfold do_ret. so_auto. Qed.
  Lemma so_deref a : so (deref bk a).
  Proof. unfold deref. so_auto. Qed.
  Hint Resolve so_do_ret so_deref : so.
  Lemma so_deref_addr a f : so (deref_addr bk a f).
  Proof. unfold deref_addr. so_auto. Qed.
  Hint Resolve so_deref_addr : so.
  Lemma so_deref_value a f : so (deref_value bk a f).
  Proof. unfold deref_value. so_auto. Qed.
  Hint Resolve so_deref_value : so.
  Variable remote : bytes -> bytes -> N -> M unit.
  Variable readc : addr -> bytes -> N -> M unit.
  Hypothesis so_remote : forall a b n, so (remote a b n).
  Hypothesis so_readc : forall a b n, so (readc a b n).
  Hint Resolve so_remote so_readc : so.
  Lemma so_rcall a b c d : so (rcall bk remote a b c d).
  Proof. unfold rcall. so_auto. Qed.
  Lemma so_cread a b c : so (cread bk readc a b c).
  Proof. unfold cread. so_auto. Qed.
  Lemma so_adr_a i : so (adr_a bk i). Proof. apply so_deref_addr. Qed.
  Lemma so_adr_b i : so (adr_b bk i). Proof. apply so_deref_addr. Qed.
  Lemma so_adr_c i : so (adr_c bk i). Proof. apply so_deref_addr. Qed.
  Lemma so_adr_d i : so (adr_d bk i). Proof. apply so_deref_addr. Qed.
  Lemma so_val_a i : so (val_a bk i). Proof. apply so_deref_value. Qed.
  Lemma so_val_b i : so (val_b bk i). Proof. apply so_deref_value. Qed.
  Lemma so_val_c i : so (val_c bk i). Proof. apply so_deref_value. Qed.
  Lemma so_val_d i : so (val_d bk i). Proof. apply so_deref_value. Qed.
  Lemma so_next : so next.
  Proof. unfold next. so_auto. Qed.
  Hint Resolve so_rcall so_cread so_adr_a so_adr_b so_adr_c so_adr_d so_val_a so_val_b so_val_c so_val_d so_next : so.
  Lemma so_arith i f : so (arith bk i f).
  Proof. unfold arith. so_auto. Qed.
  Lemma so_logic i f g : so (logic bk i f g).
  Proof. unfold logic. so_auto. Qed.
  Lemma so_shift i f : so (shift bk i f).
  Proof. unfold shift. so_auto. Qed.
  Lemma so_cmp i b f : so (cmp bk i b f).
  Proof. unfold cmp. so_auto. Qed.
  Hint Resolve so_arith so_logic so_shift so_cmp : so.
  Lemma so_exec_op i : so (exec_op bk x remote readc i).
  Proof. unfold exec_op. so_auto. Qed.
  Hint Resolve so_exec_op : so.
  Lemma so_step : so (step bk x remote readc).
  Proof. unfold step, exec. so_auto. Qed.
  Hint Resolve so_step : so.
  Lemma so_run f : so (run bk x remote readc f).
  Proof. induction f; cbn [run]; so_auto. Qed.
  Lemma so_init : so init.
  Proof. unfold init. so_auto. Qed.
  Lemma so_begin ip : so (begin ip).
  Proof. unfold begin. so_auto. Qed.
  Lemma so_stor_write a o : so (stor_write a o).
  Proof. unfold stor_write. so_auto. Qed.
  Lemma so_stor_write_entry a k o : so (stor_write_entry a k o).
  Proof. unfold stor_write_entry. so_auto. Qed.
  Hint Resolve so_init so_begin so_stor_write so_stor_write_entry : so.
  Lemma so_commit_mem l : so (commit_mem l).
  Proof. induction l as [|(a, o) l IH]; cbn [commit_mem]; so_auto. Qed.
  Lemma so_commit_ent l : so (commit_ent l).
  Proof. induction l as [|((a, k), o) l IH]; cbn [commit_ent]; so_auto. Qed.
  Hint Resolve so_commit_mem so_commit_ent : so.
  Lemma so_commit : so (commit bk).
  Proof. unfold commit. so_auto. Qed.
  Hint Resolve so_commit : so.
  Hint Resolve so_run : so.
  Lemma so_execute f ip c : so (execute bk x remote readc f ip c).
  Proof. unfold execute. so_auto. Qed.
  Lemma so_set_deposit c a : so (set_deposit bk c a).
  Proof. unfold set_deposit. so_auto. Qed.
  Lemma so_load_constants l : forall d, so (load_constants bk l d).
  Proof. induction l; intros; cbn [load_constants]; so_auto. Qed.
  Hint Resolve so_load_constants : so.
  Lemma so_load_binary c k : so (load_binary bk c k).
  Proof. unfold load_binary. so_auto. Qed.
End GAS.
#[global] Hint Resolve so_read so_read_entry so_alloc so_lookup so_assign so_write so_write_entry so_opt so_bin_ok so_set_deposit so_load_binary so_get_frame : so.


(** two engines *)
Definition so2 {A} (m : MM A) : Prop := forall d s a d1 s1, m (d, s) = Ok2 a d1 s1 -> kept d d1 /\ kept s s1.
Lemma so2_ret A (a : A) : so2 (ret2 a).
Proof. intros d s b d1 s1 [= <- <- <-]. split; apply kept_refl. Qed.
Lemma so2_throw A : so2 (@throw2 A).
Proof. intros d s b d1 s1 [=]. Qed.
Lemma so2_bind A B (m : MM A) (k : A -> MM B) : so2 m -> (forall a, so2 (k a)) -> so2 (bind2 m k).
Proof.
  intros H K d s b d2 s2. unfold bind2. destruct (m (d, s)) as [a d1 s1| | |] eqn:E; try discriminate. intros E2.
  destruct (H d s a d1 s1 E) as (G1 & G2). destruct (K a d1 s1 b d2 s2 E2) as (G3 & G4). split; eapply kept_trans; eauto.
Qed.
Lemma so2_dst A (m : M A) : so m -> so2 (on_dst m).
Proof.
  intros H d s b d1 s1. unfold on_dst. destruct (m d) as [a d2| | |] eqn:E; try discriminate. intros [= <- <- <-]. split; eauto using kept_refl.
Qed.
Lemma so2_src A (m : M A) : so m -> so2 (on_src m).
Proof.
  intros H d s b d1 s1. unfold on_src. destruct (m s) as [a d2| | |] eqn:E; try discriminate. intros [= <- <- <-]. split; eauto using kept_refl.
Qed.
Lemma so2_each A (f : A -> MM unit) l : (forall a, so2 (f a)) -> so2 (each f l).
Proof. intros H. induction l; cbn [each]; [apply so2_ret|]. apply so2_bind; auto. Qed.

Section EXEC.
  Variable E : env.
  Let bk := e_backend E.
  Let x := e_ext E.
  Lemma so_charge_contract a : so (charge_contract E a).
  Proof. unfold charge_contract. so_auto. Qed.
  Lemma so_handle p v : so (handle E p v).
  Proof. unfold handle. so_auto. Qed.
  Lemma so_size_ok v : so (size_ok v).
  Proof. unfold size_ok. so_auto. Qed.
  Hint Resolve so_charge_contract so_handle so_size_ok : so.
  Lemma so_assign_to t : forall n p, so (assign_to E n p t).
  Proof.
    revert t. fix IH 1. intros t n p. destruct t as [| | | | |l|l|]; try (cbn [assign_to]; so_auto; fail).
    - cbn [assign_to]. destruct n as [|n]; [apply so_throw|]. apply so_bind; [auto with so|]. intros a. apply so_bind; [auto with so|]. intros _.
      apply so_bind; [|intros; auto with so]. generalize 0 as i.
      induction l as [|t l IHl]; intros i; [apply so_ret|]. apply so_bind; [apply IH|]. intros _. apply IHl.
    - cbn [assign_to]. destruct n as [|n]; [apply so_throw|]. apply so_bind; [auto with so|]. intros a. apply so_bind; [auto with so|]. intros _.
      apply so_bind; [|intros; auto with so].
      induction l as [|(k, t) l IHl]; [apply so_ret|]. apply so_bind; [auto with so|]. intros v. apply so_bind; [auto with so|]. intros _.
      apply so_bind; [destruct (key_ok v); auto with so|]. intros _. apply so_bind; [auto with so|]. intros h. apply so_bind; [apply IH|]. intros _. apply IHl.
  Qed.
  Lemma so_assign_var d t : so (assign_var E d t).
  Proof. apply so_assign_to. Qed.
  Hint Resolve so_assign_var : so.
  Lemma so_set_args l : forall d, so (set_args E l d).
  Proof. induction l; intros; cbn [set_args]; so_auto. Qed.
  Lemma so2_vcopy n : forall p v, so2 (vcopy E n p v).
  Proof.
    induction n as [|n IH]; intros p v; cbn [vcopy]; [apply so2_throw|].
    assert (RS : forall a, so2 (bind2 (on_src (read bk a false)) (fun o => ret2 (option_map (fun o => (o_val o, f_stored (o_fl o))) o)))).
    { intros a. apply so2_bind; [apply so2_src; auto with so|]. intros. apply so2_ret. }
    assert (W : forall v, so2 (on_dst (match p with PVar a => write bk a (STmp v) | PEntry a k => write_entry bk a k (STmp v) end))).
    { intros w. apply so2_dst. destruct p; auto with so. }
    apply so2_bind; [|intros; apply so2_dst; auto with so].
    destruct v as [(v, st)|]; [|apply so2_ret]. destruct v; try apply W.
    - apply so2_bind; [apply so2_dst; auto with so|]. intros h. apply so2_bind; [apply RS|]. intros o. apply so2_bind; [apply IH|]. intros _. apply W.
    - destruct p; [|apply so2_throw]. apply so2_bind; [apply so2_dst; auto with so|]. intros _. apply so2_each. intros i.
      apply so2_bind; [apply so2_src; auto with so|]. intros o. apply IH.
    - destruct p; [|apply so2_throw]. destruct st; [apply so2_throw|]. apply so2_bind; [apply so2_dst; auto with so|]. intros _.
      apply so2_bind; [apply so2_src; so_auto|]. intros l. apply so2_each. intros e.
      apply so2_bind; [apply so2_src; auto with so|]. intros o. apply so2_bind; [destruct o; [apply so2_dst; auto with so|apply so2_ret]|]. intros k. apply IH.
  Qed.
  Lemma so2_copy_var d s : so2 (copy_var E d s).
  Proof. unfold copy_var. apply so2_bind; [apply so2_src; auto with so|]. intros. apply so2_vcopy. Qed.
  Lemma so_prepare b name i : so (prepare E b name i).
  Proof. unfold prepare. so_auto. Qed.
  Lemma so_settle l : so (settle E l).
  Proof. induction l; cbn [settle]; so_auto. Qed.
  Hint Resolve so_settle so_prepare so_set_args : so.
  Lemma so_finish : so (finish E).
  Proof. unfold finish. so_auto. Qed.
  Lemma so_fetch a : so (fetch E a).
  Proof. unfold fetch. so_auto. Qed.
  Hint Resolve so_finish so_fetch : so.
  Lemma so_read_contract a f d : so (read_contract E a f d).
  Proof. unfold read_contract. so_auto. Qed.
  Hint Resolve so_read_contract : so.
  Lemma so_run_method remote depends m : (forall d a b n, so (remote d a b n)) -> so (run_method E remote depends m).
  Proof.
    intros H. unfold run_method. so_auto. apply so_execute; auto with so.
  Qed.
  Lemma so2_copy_args n : forall i p, so2 (copy_args E n i p).
  Proof. induction n; intros; cbn [copy_args]; [apply so2_ret|]. apply so2_bind; [apply so2_copy_var|auto]. Qed.
  Lemma so2_call_setup n p u a : so2 (call_setup E n p u a).
  Proof. unfold call_setup. apply so2_bind; [apply so2_copy_args|]. intros _. apply so2_dst. so_auto. Qed.
  Lemma so2_call_child rm b dp name setup : (forall d m, so (rm d m)) -> so2 setup -> so2 (call_child E rm b dp name setup).
  Proof.
    intros H S. unfold call_child. apply so2_bind; [destruct (e_hf2 E); auto using so2_ret|]. intros _. apply so2_bind; [apply so2_dst; auto with so|]. intros m.
    apply so2_bind; [destruct (e_hf2 E); auto using so2_ret|]. intros _. apply so2_dst; auto.
  Qed.
  Lemma so_remote_call n : forall dp name m na, so (remote_call E n dp name m na).
  Proof.
    induction n as [|n IH]; intros dp name m na; cbn [remote_call]; [apply so_fuel|].
    apply so_bind; [auto with so|]. intros address. apply so_bind; [auto with so|]. intros c. apply so_bind; [auto with so|]. intros k.
    apply so_bind; [auto with so|]. intros ex. apply so_bind; [auto with so|]. intros _. apply so_bind; [auto with so|]. intros _.
    apply so_bind; [auto with so|]. intros f. intros s a s3. cbv zeta.
    set (run := run_method E (remote_call E n)). set (sp := MEM_STACK + snd f).
    assert (SC : forall u, so2 (call_child E run (fst ex) (snd ex) m (call_setup E na sp u address))).
    { intros u. apply so2_call_child; [|apply so2_call_setup]. intros. apply so_run_method; auto. }
    destruct (call_child _ _ _ _ _ _ (_, s)) as [u c1 s1| | |] eqn:CC; try discriminate.
    destruct (copy_var E sp MEM_STACK (_, c1)) as [u2 s2 c2| | |] eqn:CV; try discriminate. intros AG.
    destruct (SC _ _ _ _ _ _ CC) as (_ & C2). destruct (so2_copy_var _ _ _ _ _ _ _ CV) as (C3 & _).
    assert (SA : so (bind (add_gas (s_gas c2)) (fun _ => check_gas))) by so_auto.
    eapply kept_trans; [exact C2|]. eapply kept_trans; [|exact (SA _ _ _ AG)]. exact C3.
  Qed.
  Lemma so_start_setup a u : so (start_setup E a u).
  Proof. unfold start_setup. so_auto. Qed.
  Lemma so_add_deposit d : so (add_deposit E d).
  Proof. unfold add_deposit. so_auto. Qed.
  Lemma so_op_setup d l : so (op_setup E d l).
  Proof. unfold op_setup. so_auto. Qed.
  Hint Resolve so_start_setup so_add_deposit so_op_setup : so.
  Theorem so_exec_call depth ex address user deposit name args is_init : so (exec_call E depth ex address user deposit name args is_init).
  Proof. unfold exec_call. so_auto. apply so_run_method. intros. apply so_remote_call. Qed.
End EXEC.
