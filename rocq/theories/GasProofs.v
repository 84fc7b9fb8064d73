(** A call that succeeds with some gas limit does the same with every limit that its gas stays below *)
Require Import List Arith NArith ZArith Bool Lia.
From Verif Require Import BytesLib OrdLib VarModel InstrModel EngineModel ExecModel.
Import ListNotations.
Open Scope N_scope.

(** [m'] with another limit does what [m] does, or the model's bound on the number of steps is reached *)
Definition sim {A} (m m' : M A) : Prop := forall s a s1, m s = Ok a s1 ->
  s_gas s <= s_gas s1 /\ s_limit s1 = s_limit s /\
  forall L, s_gas s1 <= L -> m' (set_limit L s) = Ok a (set_limit L s1) \/ m' (set_limit L s) = Fuel.
Notation mono m := (sim m m).

Lemma sim_ret A (a : A) : mono (ret a).
Proof. intros s b s1 [= <- <-]. split; [lia|]. split; auto. Qed.
Lemma sim_throw A (m : M A) : sim throw m.
Proof. intros s b s1 [=]. Qed.
Lemma sim_undefined A (m : M A) : sim undefined m.
Proof. intros s b s1 [=]. Qed.
Lemma sim_fuel A (m : M A) : sim (fun _ => Fuel) m.
Proof. intros s b s1 [=]. Qed.
Lemma sim_bind A B (m m' : M A) (k k' : A -> M B) : sim m m' -> (forall a, sim (k a) (k' a)) -> sim (bind m k) (bind m' k').
Proof.
  intros H K s b s2. unfold bind. destruct (m s) as [a s1| | |] eqn:E; try discriminate. intros E2.
  destruct (H s a s1 E) as (G1 & L1 & H1). destruct (K a s1 b s2 E2) as (G2 & L2 & H2). split; [lia|]. split; [congruence|].
  intros L G. destruct (H1 L ltac:(lia)) as [->| ->]; auto.
Qed.
Lemma sim_get A (k k' : st -> M A) : (forall s, sim (k s) (k' s)) -> (forall s L, k' (set_limit L s) = k' s) -> sim (bind get k) (bind get k').
Proof.
  intros H C s a s1 E. unfold bind, get in *. destruct (H s s a s1 E) as (G & L1 & H1). split; auto. split; auto.
  intros L GL. rewrite C. auto.
Qed.
Lemma sim_modify f : (forall s, s_gas s <= s_gas (f s)) -> (forall s, s_limit (f s) = s_limit s) -> (forall s L, f (set_limit L s) = set_limit L (f s)) -> mono (modify f).
Proof. intros G K C s a s1 [= <- <-]. split; auto. split; auto. intros L _. left. unfold modify. now rewrite C. Qed.
Lemma sim_check_gas : mono check_gas.
Proof.
  intros s a s1. unfold check_gas. destruct (N.ltb_spec (s_limit s) (s_gas s)); intros [= <- <-]. split; [lia|]. split; auto.
  intros L G. left. cbn [s_limit s_gas set_limit]. destruct (N.ltb_spec L (s_gas s)); [lia|]. reflexivity.
Qed.
Lemma sim_add_gas n : mono (add_gas n).
Proof. apply sim_modify; intros; cbn; auto. lia. Qed.
Lemma sim_put l o : mono (put l o).
Proof. apply sim_modify; intros; destruct l; cbn; auto; lia. Qed.
Lemma sim_put_new l rc f v : mono (put_new l rc f v).
Proof. intros s a s1 [= <- <-]. destruct l; (split; [cbn; lia|]; split; [reflexivity|]); intros L _; left; reflexivity. Qed.
Create HintDb mono.
#[global] Hint Resolve sim_ret sim_throw sim_undefined sim_fuel sim_check_gas sim_add_gas sim_put sim_put_new : mono.
Ltac mono_step :=
  match goal with
  | |- sim (bind get _) _ => apply sim_get; [intros|intros; reflexivity]
  | |- sim (bind _ _) _ => apply sim_bind; [|intros]
  | |- sim (modify _) _ => apply sim_modify; [intros; cbn; lia|intros; reflexivity|intros; reflexivity]
  | |- sim (let '(_, _) := ?b in _) _ => destruct b
  | |- sim (if ?b then _ else _) _ => destruct b
  | |- sim (match ?b with _ => _ end) _ => destruct b
  | |- sim _ _ => solve [auto with mono]
  end.
Ltac mono_auto := repeat (cbv beta zeta; mono_step).

Section GAS.
  Variable bk : backend.
  Variable x : ext.
  Lemma sim_load r : mono (load r).
  Proof. unfold load. mono_auto. Qed.
  Lemma sim_charge_read v : mono (charge_read v).
  Proof. unfold charge_read. mono_auto. Qed.
  Hint Resolve sim_load sim_charge_read : mono.
  Lemma sim_stor_read a : mono (stor_read bk a).
  Proof. unfold stor_read. mono_auto. Qed.
  Lemma sim_stor_entry a k : mono (stor_entry bk a k).
  Proof. unfold stor_entry. mono_auto. Qed.
  Lemma sim_stor_lookup v : mono (stor_lookup bk v).
  Proof. unfold stor_lookup. mono_auto. Qed.
  Lemma sim_stor_balance c : mono (stor_balance bk c).
  Proof. unfold stor_balance. mono_auto. Qed.
  Lemma sim_put_stored l v : mono (put_stored l v).
  Proof. unfold put_stored. mono_auto. Qed.
  Hint Resolve sim_stor_read sim_stor_entry sim_stor_lookup sim_stor_balance sim_put_stored : mono.
  Lemma sim_read a b : mono (read bk a b).
  Proof. unfold read. mono_auto. Qed.
  Hint Resolve sim_read : mono.
  Lemma sim_read_fail a : mono (read_fail bk a).
  Proof. unfold read_fail. mono_auto. Qed.
  Lemma sim_read_entry a k : mono (read_entry bk a k).
  Proof. unfold read_entry. mono_auto. Qed.
  Hint Resolve sim_read_fail sim_read_entry : mono.
  Lemma sim_read_entry_fail a k : mono (read_entry_fail bk a k).
  Proof. unfold read_entry_fail. mono_auto. Qed.
  Lemma sim_read_uint a : mono (read_uint bk a).
  Proof. unfold read_uint. mono_auto. Qed.
  Lemma sim_read_string a : mono (read_string bk a).
  Proof. unfold read_string. mono_auto. Qed.
  Lemma sim_read_binary a : mono (read_binary bk a).
  Proof. unfold read_binary. mono_auto. Qed.
  Lemma sim_to_addr d : mono (to_addr d).
  Proof. unfold to_addr. mono_auto. Qed.
  Lemma sim_addref a : mono (addref bk a).
  Proof. unfold addref. mono_auto. Qed.
  Hint Resolve sim_read_entry_fail sim_read_uint sim_read_string sim_read_binary sim_to_addr sim_addref : mono.
  Section ERASE.
    Variable er : loc -> M unit.
    Hypothesis sim_er : forall l, mono (er l).
    Hint Resolve sim_er : mono.
    Lemma sim_erase_mem_with a : mono (erase_mem_with bk er a).
    Proof. unfold erase_mem_with. mono_auto. Qed.
    Hint Resolve sim_erase_mem_with : mono.
    Lemma sim_unref_with a : mono (unref_with bk er a).
    Proof. unfold unref_with. mono_auto. Qed.
    Lemma sim_erase_keys_with a ks : mono (erase_keys_with er a ks).
    Proof. induction ks; cbn [erase_keys_with]; mono_auto. Qed.
    Hint Resolve sim_unref_with sim_erase_keys_with : mono.
    Lemma sim_erase_entries_with a : mono (erase_entries_with er a).
    Proof. unfold erase_entries_with. mono_auto. Qed.
    Hint Resolve sim_erase_entries_with : mono.
    Lemma sim_clear_with o : mono (clear_with bk er o).
    Proof. unfold clear_with. mono_auto. Qed.
  End ERASE.
  Lemma sim_erase_loc n : forall l, mono (erase_loc bk n l).
  Proof.
    induction n as [|n IH]; intros l; cbn [erase_loc]; mono_auto. now apply sim_clear_with.
  Qed.
  Lemma sim_er l : mono (er bk l). Proof. apply sim_erase_loc. Qed.
  Lemma sim_erase_mem a : mono (erase_mem bk a). Proof. apply sim_erase_mem_with, sim_er. Qed.
  Lemma sim_unref a : mono (unref bk a). Proof. apply sim_unref_with, sim_er. Qed.
  Lemma sim_clear o : mono (clear bk o). Proof. apply sim_clear_with, sim_er. Qed.
  Hint Resolve sim_er sim_erase_mem sim_unref sim_clear : mono.
  Lemma sim_assign_loc l v : mono (assign_loc bk l v).
  Proof. unfold assign_loc. mono_auto. Qed.
  Lemma sim_load_for_write a : mono (load_for_write bk a).
  Proof. unfold load_for_write. mono_auto. Qed.
  Lemma sim_check_init a : mono (check_init a).
  Proof. unfold check_init. mono_auto. Qed.
  Hint Resolve sim_assign_loc sim_load_for_write sim_check_init : mono.
  Lemma sim_assign a v : mono (assign bk a v).
  Proof. unfold assign. mono_auto. Qed.
  Hint Resolve sim_assign : mono.
  Lemma sim_write_gen cont l r : (forall o, mono (cont o)) -> mono (write_gen bk cont l r).
  Proof. intros. unfold write_gen. mono_auto. Qed.
  Lemma sim_write_ent l r : mono (write_ent bk l r).
  Proof. apply sim_write_gen. intros. apply sim_throw. Qed.
  Hint Resolve sim_write_ent : mono.
  Lemma sim_write_entry a k r : mono (write_entry bk a k r).
  Proof. unfold write_entry. mono_auto. Qed.
  Hint Resolve sim_write_entry : mono.
  Lemma sim_copy_array d r n : forall i, mono (copy_array bk d r n i).
  Proof. induction n; intros; cbn [copy_array]; mono_auto. Qed.
  Lemma sim_copy_map d r ks : mono (copy_map bk d r ks).
  Proof. induction ks; intros; cbn [copy_map]; mono_auto. Qed.
  Hint Resolve sim_copy_array sim_copy_map : mono.
  Lemma sim_write_container d r o : mono (write_container bk d r o).
  Proof. unfold write_container. mono_auto. Qed.
  Hint Resolve sim_write_container : mono.
  Lemma sim_write a r : mono (write bk a r).
  Proof. unfold write. mono_auto. apply sim_write_gen. auto with mono. Qed.
  Hint Resolve sim_write : mono.
  Lemma sim_write_val a v : mono (write_val bk a v).
  Proof. apply sim_write. Qed.
  Lemma sim_write_opt a v : mono (write_opt bk a v).
  Proof. apply sim_write. Qed.
  Hint Resolve sim_write_val sim_write_opt : mono.
  Lemma sim_alloc : mono (alloc bk).
  Proof. unfold alloc. mono_auto. Qed.
  Hint Resolve sim_alloc : mono.
  Lemma sim_lookup r b : mono (lookup bk r b).
  Proof. unfold lookup. mono_auto. Qed.
  Hint Resolve sim_lookup : mono.
  Lemma sim_lookup_addr a b : mono (lookup_addr bk a b).
  Proof. unfold lookup_addr. mono_auto. Qed.
  Lemma sim_push_back_ref d r : mono (push_back_ref bk d r).
  Proof. unfold push_back_ref. mono_auto. Qed.
  Hint Resolve sim_lookup_addr sim_push_back_ref : mono.
  Lemma sim_push_back d s : mono (push_back bk d s).
  Proof. unfold push_back. mono_auto. Qed.
  Lemma sim_erase_entry a k : mono (erase_entry bk a k).
  Proof. unfold erase_entry. mono_auto. Qed.
  Hint Resolve sim_push_back sim_erase_entry : mono.
  Lemma sim_pop_back d s : mono (pop_back bk d s).
  Proof. unfold pop_back. mono_auto. Qed.
  Lemma sim_read_key a k : mono (read_key bk a k).
  Proof. unfold read_key. mono_auto. Qed.
  Lemma sim_erase_key a k : mono (erase_key bk a k).
  Proof. unfold erase_key. mono_auto. Qed.
  Lemma sim_copy d s : mono (copy bk d s).
  Proof. unfold copy. mono_auto. Qed.
  Lemma sim_clone d s : mono (clone bk d s).
  Proof. unfold clone. mono_auto. Qed.
  Hint Resolve sim_pop_back sim_read_key sim_erase_key sim_copy sim_clone : mono.
  Lemma sim_vget d a k h : mono (vget bk d a k h).
  Proof. unfold vget. mono_auto. Qed.
  Lemma sim_vset d a k : mono (vset bk d a k).
  Proof. unfold vset. mono_auto. Qed.
  Lemma sim_verase a k : mono (verase bk a k).
  Proof. unfold verase. mono_auto. Qed.
  Lemma sim_concat_array d r n : forall i, mono (concat_array bk d r n i).
  Proof. induction n; intros; cbn [concat_array]; mono_auto. Qed.
  Lemma sim_bin_ok n : mono (bin_ok n).
  Proof. unfold bin_ok. mono_auto. Qed.
  Hint Resolve sim_vget sim_vset sim_verase sim_concat_array sim_bin_ok : mono.
  Lemma sim_concat d l r : mono (concat bk d l r).
  Proof. unfold concat. mono_auto. Qed.
  Lemma sim_vmemcpy d s c o : mono (vmemcpy bk d s c o).
  Proof. unfold vmemcpy. mono_auto. Qed.
  Lemma sim_vsha256 d s : mono (vsha256 bk x d s).
  Proof. unfold vsha256. mono_auto. Qed.
  Lemma sim_vverify d m p s : mono (vverify bk x d m p s).
  Proof. unfold vverify. mono_auto. Qed.
  Lemma sim_opt A (o : option A) : mono (opt o).
  Proof. unfold opt. mono_auto. Qed.
  Lemma sim_alloc_bin d mk b : mono (alloc_bin bk d mk b).
  Proof. unfold alloc_bin. mono_auto. Qed.
  Hint Resolve sim_concat sim_vmemcpy sim_vsha256 sim_vverify sim_opt sim_alloc_bin : mono.
  Lemma sim_conv d s df sf : mono (conv bk x d s df sf).
  Proof. unfold conv. mono_auto. Qed.
  Lemma sim_parse_memo a : mono (parse_memo bk a).
  Proof. unfold parse_memo. mono_auto. Qed.
  Lemma sim_get_balance c : mono (get_balance bk c).
  Proof. unfold get_balance. mono_auto. Qed.
  Hint Resolve sim_conv sim_parse_memo sim_get_balance : mono.
  Lemma sim_vsend a v c m : mono (vsend bk a v c m).
  Proof. unfold vsend. mono_auto. Qed.
  Lemma sim_vmint a v m : mono (vmint bk a v m).
  Proof. unfold vmint. mono_auto. Qed.
  Lemma sim_read_balance d c : mono (read_balance bk d c).
  Proof. unfold read_balance. mono_auto. Qed.
  Lemma sim_get_frame : mono get_frame.
  Proof. unfold get_frame. mono_auto. Qed.
  Lemma sim_jump ip : mono (jump ip).
  Proof. unfold jump. mono_auto. Qed.
  Hint Resolve sim_vsend sim_vmint sim_read_balance sim_get_frame sim_jump : mono.
  Lemma sim_call ip sp : mono (call ip sp).
  Proof. unfold call. mono_auto. Qed.
  Lemma sim_clear_addrs l : mono (clear_addrs bk l).
  Proof. induction l; cbn [clear_addrs]; mono_auto. Qed.
  Hint Resolve sim_call sim_clear_addrs : mono.
  Lemma sim_clear_stack o : mono (clear_stack bk o).
  Proof. unfold clear_stack. mono_auto. Qed.
  Hint Resolve sim_clear_stack : mono.
  Lemma sim_do_ret : mono (do_ret bk).
  Proof. unfold do_ret. mono_auto. Qed.
  Lemma sim_deref a : mono (deref bk a).
  Proof. unfold deref. mono_auto. Qed.
  Hint Resolve sim_do_ret sim_deref : mono.
  Lemma sim_deref_addr a f : mono (deref_addr bk a f).
  Proof. unfold deref_addr. mono_auto. Qed.
  Hint Resolve sim_deref_addr : mono.
  Lemma sim_deref_value a f : mono (deref_value bk a f).
  Proof. unfold deref_value. mono_auto. Qed.
  Hint Resolve sim_deref_value : mono.
  Variable remote : bytes -> bytes -> N -> M unit.
  Variable readc : addr -> bytes -> N -> M unit.
  Hypothesis sim_remote : forall a b n, mono (remote a b n).
  Hypothesis sim_readc : forall a b n, mono (readc a b n).
  Hint Resolve sim_remote sim_readc : mono.
  Lemma sim_rcall a b c d : mono (rcall bk remote a b c d).
  Proof. unfold rcall. mono_auto. Qed.
  Lemma sim_cread a b c : mono (cread bk readc a b c).
  Proof. unfold cread. mono_auto. Qed.
  Lemma sim_adr_a i : mono (adr_a bk i). Proof. apply sim_deref_addr. Qed.
  Lemma sim_adr_b i : mono (adr_b bk i). Proof. apply sim_deref_addr. Qed.
  Lemma sim_adr_c i : mono (adr_c bk i). Proof. apply sim_deref_addr. Qed.
  Lemma sim_adr_d i : mono (adr_d bk i). Proof. apply sim_deref_addr. Qed.
  Lemma sim_val_a i : mono (val_a bk i). Proof. apply sim_deref_value. Qed.
  Lemma sim_val_b i : mono (val_b bk i). Proof. apply sim_deref_value. Qed.
  Lemma sim_val_c i : mono (val_c bk i). Proof. apply sim_deref_value. Qed.
  Lemma sim_val_d i : mono (val_d bk i). Proof. apply sim_deref_value. Qed.
  Lemma sim_next : mono next.
  Proof. unfold next. mono_auto. Qed.
  Hint Resolve sim_rcall sim_cread sim_adr_a sim_adr_b sim_adr_c sim_adr_d sim_val_a sim_val_b sim_val_c sim_val_d sim_next : mono.
  Lemma sim_arith i f : mono (arith bk i f).
  Proof. unfold arith. mono_auto. Qed.
  Lemma sim_logic i f g : mono (logic bk i f g).
  Proof. unfold logic. mono_auto. Qed.
  Lemma sim_shift i f : mono (shift bk i f).
  Proof. unfold shift. mono_auto. Qed.
  Lemma sim_cmp i b f : mono (cmp bk i b f).
  Proof. unfold cmp. mono_auto. Qed.
  Hint Resolve sim_arith sim_logic sim_shift sim_cmp : mono.
  Lemma sim_exec_op i : mono (exec_op bk x remote readc i).
  Proof. unfold exec_op. mono_auto. Qed.
  Hint Resolve sim_exec_op : mono.
  Lemma sim_step : mono (step bk x remote readc).
  Proof. unfold step, exec. mono_auto. Qed.
  Hint Resolve sim_step : mono.
  Lemma sim_run f : forall f', sim (run bk x remote readc f) (run bk x remote readc f').
  Proof.
    induction f as [|f IH]; intros f' s a s1; cbn [run]; unfold bind, get.
    - destruct (s_frames s) eqn:F; [|discriminate]. intros [= <- <-]. split; [lia|]. split; auto. intros L _. left. destruct f'; cbn [run]; unfold bind, get; cbn [s_frames set_limit]; now rewrite F.
    - destruct (s_frames s) eqn:F.
      + intros [= <- <-]. split; [lia|]. split; auto. intros L _. left. destruct f'; cbn [run]; unfold bind, get; cbn [s_frames set_limit]; now rewrite F.
      + intros E. destruct f' as [|f'].
        * assert (SI : sim (bind (step bk x remote readc) (fun _ => run bk x remote readc f)) (bind (step bk x remote readc) (fun _ => run bk x remote readc f))).
          { apply sim_bind; auto with mono. }
          destruct (SI s a s1 E) as (G1 & L1 & _). split; auto. split; auto. intros L _. right. cbn [run]. unfold bind, get. cbn [s_frames set_limit]. now rewrite F.
        * assert (SI : sim (bind (step bk x remote readc) (fun _ => run bk x remote readc f)) (bind (step bk x remote readc) (fun _ => run bk x remote readc f'))).
          { apply sim_bind; auto with mono. }
          destruct (SI s a s1 E) as (G1 & L1 & H). split; auto. split; auto. intros L GL. specialize (H L GL). cbn [run]. unfold bind, get in *. cbn [s_frames set_limit].
          rewrite F. exact H.
  Qed.
  Lemma sim_init : mono init.
  Proof. unfold init. mono_auto. Qed.
  Lemma sim_begin ip : mono (begin ip).
  Proof. unfold begin. mono_auto. Qed.
  Lemma sim_stor_write a o : mono (stor_write a o).
  Proof. unfold stor_write. mono_auto. Qed.
  Lemma sim_stor_write_entry a k o : mono (stor_write_entry a k o).
  Proof. unfold stor_write_entry. mono_auto. Qed.
  Hint Resolve sim_init sim_begin sim_stor_write sim_stor_write_entry : mono.
  Lemma sim_commit_mem l : mono (commit_mem l).
  Proof. induction l as [|(a, o) l IH]; cbn [commit_mem]; mono_auto. Qed.
  Lemma sim_commit_ent l : mono (commit_ent l).
  Proof. induction l as [|((a, k), o) l IH]; cbn [commit_ent]; mono_auto. Qed.
  Hint Resolve sim_commit_mem sim_commit_ent : mono.
  Lemma sim_commit : mono (commit bk).
  Proof. unfold commit. mono_auto. Qed.
  Hint Resolve sim_commit : mono.
  Lemma sim_execute f f' ip c : sim (execute bk x remote readc f ip c) (execute bk x remote readc f' ip c).
  Proof. unfold execute. apply sim_bind; [apply sim_begin|intros _]. apply sim_bind; [apply sim_run|intros _]. apply sim_bind; [destruct c; auto with mono|auto with mono]. Qed.
  Lemma sim_set_deposit c a : mono (set_deposit bk c a).
  Proof. unfold set_deposit. mono_auto. Qed.
  Lemma sim_load_constants l : forall d, mono (load_constants bk l d).
  Proof. induction l; intros; cbn [load_constants]; mono_auto. Qed.
  Hint Resolve sim_load_constants : mono.
  Lemma sim_load_binary c k : mono (load_binary bk c k).
  Proof. unfold load_binary. mono_auto. Qed.
End GAS.
#[global] Hint Resolve sim_read sim_read_entry sim_alloc sim_lookup sim_assign sim_write sim_write_entry sim_opt sim_bin_ok sim_set_deposit sim_load_binary sim_get_frame : mono.

(** two engines *)
Definition sim2 {A} (m m' : MM A) : Prop := forall d s a d1 s1, m (d, s) = Ok2 a d1 s1 ->
  s_gas d <= s_gas d1 /\ s_limit d1 = s_limit d /\ s_gas s <= s_gas s1 /\ s_limit s1 = s_limit s /\
  forall L K, s_gas d1 <= L -> s_gas s1 <= K ->
    m' (set_limit L d, set_limit K s) = Ok2 a (set_limit L d1) (set_limit K s1) \/ m' (set_limit L d, set_limit K s) = Fuel2.
Notation mono2 m := (sim2 m m).
Lemma sim2_ret A (a : A) : mono2 (ret2 a).
Proof. intros d s b d1 s1 [= <- <- <-]. repeat (split; [auto; lia|]). auto. Qed.
Lemma sim2_throw A (m : MM A) : sim2 throw2 m.
Proof. intros d s b d1 s1 [=]. Qed.
Lemma sim2_bind A B (m m' : MM A) (k k' : A -> MM B) : sim2 m m' -> (forall a, sim2 (k a) (k' a)) -> sim2 (bind2 m k) (bind2 m' k').
Proof.
  intros H K d s b d2 s2. unfold bind2. destruct (m (d, s)) as [a d1 s1| | |] eqn:E; try discriminate. intros E2.
  destruct (H d s a d1 s1 E) as (G1 & L1 & G2 & L2 & H1). destruct (K a d1 s1 b d2 s2 E2) as (G3 & L3 & G4 & L4 & H2).
  split; [lia|]. split; [congruence|]. split; [lia|]. split; [congruence|].
  intros L L' G G'. destruct (H1 L L' ltac:(lia) ltac:(lia)) as [->| ->]; auto.
Qed.
Lemma sim2_dst A (m m' : M A) : sim m m' -> sim2 (on_dst m) (on_dst m').
Proof.
  intros H d s b d1 s1. unfold on_dst. destruct (m d) as [a d2| | |] eqn:E; try discriminate. intros [= <- <- <-].
  destruct (H d a d2 E) as (G1 & L1 & H1). repeat (split; [auto; lia|]). intros L K GL _. destruct (H1 L GL) as [->| ->]; auto.
Qed.
Lemma sim2_src A (m m' : M A) : sim m m' -> sim2 (on_src m) (on_src m').
Proof.
  intros H d s b d1 s1. unfold on_src. destruct (m s) as [a d2| | |] eqn:E; try discriminate. intros [= <- <- <-].
  destruct (H s a d2 E) as (G1 & L1 & H1). repeat (split; [auto; lia|]). intros L K _ GL. destruct (H1 K GL) as [->| ->]; auto.
Qed.
Lemma sim2_each A (f : A -> MM unit) l : (forall a, mono2 (f a)) -> mono2 (each f l).
Proof. intros H. induction l; cbn [each]; [apply sim2_ret|]. apply sim2_bind; auto. Qed.

Section EXEC.
  Variable E : env.
  Let bk := e_backend E.
  Let x := e_ext E.
  Lemma sim_charge_contract a : mono (charge_contract E a).
  Proof.
    intros s u s1. unfold charge_contract, bind, get. destruct (N.ltb_spec (s_limit s) (s_gas s + e_read_cost E a)); [discriminate|].
    unfold add_gas, modify. intros [= <- <-]. cbn [s_gas s_limit set_gas set_limit]. split; [lia|]. split; auto. intros L G. left.
    destruct (N.ltb_spec L (s_gas s + e_read_cost E a)); [lia|]. reflexivity.
  Qed.
  Lemma sim_handle p v : mono (handle E p v).
  Proof. unfold handle. mono_auto. Qed.
  Lemma sim_size_ok v : mono (size_ok v).
  Proof. unfold size_ok. mono_auto. Qed.
  Hint Resolve sim_charge_contract sim_handle sim_size_ok : mono.
  Lemma sim_assign_to t : forall n p, mono (assign_to E n p t).
  Proof.
    revert t. fix IH 1. intros t n p. destruct t as [| | | | |l|l|]; try (cbn [assign_to]; mono_auto; fail).
    - cbn [assign_to]. destruct n as [|n]; [apply sim_throw|]. apply sim_bind; [auto with mono|]. intros a. apply sim_bind; [auto with mono|]. intros _.
      apply sim_bind; [|intros; auto with mono]. generalize 0 as i.
      induction l as [|t l IHl]; intros i; [apply sim_ret|]. apply sim_bind; [apply IH|]. intros _. apply IHl.
    - cbn [assign_to]. destruct n as [|n]; [apply sim_throw|]. apply sim_bind; [auto with mono|]. intros a. apply sim_bind; [auto with mono|]. intros _.
      apply sim_bind; [|intros; auto with mono].
      induction l as [|(k, t) l IHl]; [apply sim_ret|]. apply sim_bind; [auto with mono|]. intros v. apply sim_bind; [auto with mono|]. intros _.
      apply sim_bind; [destruct (key_ok v); auto with mono|]. intros _. apply sim_bind; [auto with mono|]. intros h. apply sim_bind; [apply IH|]. intros _. apply IHl.
  Qed.
  Lemma sim_assign_var d t : mono (assign_var E d t).
  Proof. apply sim_assign_to. Qed.
  Hint Resolve sim_assign_var : mono.
  Lemma sim_set_args l : forall d, mono (set_args E l d).
  Proof. induction l; intros; cbn [set_args]; mono_auto. Qed.
  Lemma sim2_vcopy n : forall p v, mono2 (vcopy E n p v).
  Proof.
    induction n as [|n IH]; intros p v; cbn [vcopy]; [apply sim2_throw|].
    assert (RS : forall a, mono2 (bind2 (on_src (read bk a false)) (fun o => ret2 (option_map (fun o => (o_val o, f_stored (o_fl o))) o)))).
    { intros a. apply sim2_bind; [apply sim2_src; auto with mono|]. intros. apply sim2_ret. }
    assert (W : forall v, mono2 (on_dst (match p with PVar a => write bk a (STmp v) | PEntry a k => write_entry bk a k (STmp v) end))).
    { intros w. apply sim2_dst. destruct p; auto with mono. }
    apply sim2_bind; [|intros; apply sim2_dst; auto with mono].
    destruct v as [(v, st)|]; [|apply sim2_ret]. destruct v; try apply W.
    - apply sim2_bind; [apply sim2_dst; auto with mono|]. intros h. apply sim2_bind; [apply RS|]. intros o. apply sim2_bind; [apply IH|]. intros _. apply W.
    - destruct p; [|apply sim2_throw]. apply sim2_bind; [apply sim2_dst; auto with mono|]. intros _. apply sim2_each. intros i.
      apply sim2_bind; [apply sim2_src; auto with mono|]. intros o. apply IH.
    - destruct p; [|apply sim2_throw]. destruct st; [apply sim2_throw|]. apply sim2_bind; [apply sim2_dst; auto with mono|]. intros _.
      apply sim2_bind; [apply sim2_src; mono_auto|]. intros l. apply sim2_each. intros e.
      apply sim2_bind; [apply sim2_src; auto with mono|]. intros o. apply sim2_bind; [destruct o; [apply sim2_dst; auto with mono|apply sim2_ret]|]. intros k. apply IH.
  Qed.
  Lemma sim2_copy_var d s : mono2 (copy_var E d s).
  Proof. unfold copy_var. apply sim2_bind; [apply sim2_src; auto with mono|]. intros. apply sim2_vcopy. Qed.
  Lemma sim_prepare b name i : mono (prepare E b name i).
  Proof. unfold prepare. mono_auto. Qed.
  Lemma sim_settle l : mono (settle E l).
  Proof. induction l; cbn [settle]; mono_auto. Qed.
  Hint Resolve sim_settle sim_prepare sim_set_args : mono.
  Lemma sim_finish : mono (finish E).
  Proof. unfold finish. mono_auto. Qed.
  Lemma sim_fetch a : mono (fetch E a).
  Proof. unfold fetch. mono_auto. Qed.
  Hint Resolve sim_finish sim_fetch : mono.
  Lemma sim_read_contract a f d : mono (read_contract E a f d).
  Proof. unfold read_contract. mono_auto. Qed.
  Lemma sim_run_method remote depends m : (forall d a b n, mono (remote d a b n)) -> mono (run_method E remote depends m).
  Proof.
    intros H. unfold run_method. apply sim_bind; [auto with mono|]. intros _. apply sim_bind; [auto with mono|]. intros _.
    intros s a s1 E1. unfold bind, get in E1 |- *.
    assert (SI : forall f', sim (bind (execute bk x (remote depends) (read_contract E) (fuel_of (s_limit s)) (m_entry m) (m_const m)) (fun _ => finish E))
                   (bind (execute bk x (remote depends) (read_contract E) f' (m_entry m) (m_const m)) (fun _ => finish E))).
    { intros f'. apply sim_bind; [apply sim_execute; auto using sim_read_contract|]. auto with mono. }
    destruct (SI O s a s1 E1) as (G & L1 & _). split; auto. split; auto. intros L GL. cbn [s_limit set_limit].
    exact (proj2 (proj2 (SI (fuel_of L) s a s1 E1)) L GL).
  Qed.
  Lemma sim2_copy_args n : forall i p, mono2 (copy_args E n i p).
  Proof. induction n; intros; cbn [copy_args]; [apply sim2_ret|]. apply sim2_bind; [apply sim2_copy_var|auto]. Qed.
  Lemma sim2_call_setup n p u a : mono2 (call_setup E n p u a).
  Proof. unfold call_setup. apply sim2_bind; [apply sim2_copy_args|]. intros _. apply sim2_dst. mono_auto. Qed.
  Lemma sim2_call_child rm b dp name setup : (forall d m, mono (rm d m)) -> mono2 setup -> mono2 (call_child E rm b dp name setup).
  Proof.
    intros H S. unfold call_child. apply sim2_bind; [destruct (e_hf2 E); auto using sim2_ret|]. intros _. apply sim2_bind; [apply sim2_dst; auto with mono|]. intros m.
    apply sim2_bind; [destruct (e_hf2 E); auto using sim2_ret|]. intros _. apply sim2_dst; auto.
  Qed.
  Lemma sim_remote_call n : forall dp name m na, mono (remote_call E n dp name m na).
  Proof.
    induction n as [|n IH]; intros dp name m na; cbn [remote_call]; [apply sim_fuel|].
    apply sim_bind; [auto with mono|]. intros address. apply sim_bind; [auto with mono|]. intros c. apply sim_bind; [auto with mono|]. intros k.
    apply sim_bind; [auto with mono|]. intros ex. apply sim_bind; [auto with mono|]. intros _. apply sim_bind; [auto with mono|]. intros _.
    apply sim_bind; [auto with mono|]. intros f. intros s a s3. cbv zeta.
    set (run := run_method E (remote_call E n)). set (sp := MEM_STACK + snd f).
    assert (SC : forall u, mono2 (call_child E run (fst ex) (snd ex) m (call_setup E na sp u address))).
    { intros u. apply sim2_call_child; [|apply sim2_call_setup]. intros. apply sim_run_method; auto. }
    set (lim := s_limit s - N.min (s_gas s) (s_limit s)).
    destruct (call_child _ _ _ _ _ _ (_, s)) as [u c1 s1| | |] eqn:CC; try discriminate.
    destruct (copy_var E sp MEM_STACK (_, c1)) as [u2 s2 c2| | |] eqn:CV; try discriminate. intros AG.
    destruct (SC _ _ _ _ _ _ CC) as (G1 & L1 & G2 & L2 & H1). destruct (sim2_copy_var _ _ _ _ _ _ _ CV) as (G3 & L3 & G4 & L4 & H2).
    cbn [s_gas set_world] in G3. cbn [s_limit set_world] in L3.
    assert (SA : mono (bind (add_gas (s_gas c2)) (fun _ => check_gas))) by mono_auto.
    destruct (SA _ _ _ AG) as (G5 & L5 & H3).
    assert (G6 : s_gas s3 = s_gas s2 + s_gas c2).
    { unfold bind, add_gas, modify, check_gas in AG. destruct (_ <? _); [discriminate|]. injection AG as _ <-. reflexivity. }
    split; [lia|]. split; [congruence|]. intros L GL. cbn [s_gas s_limit s_world s_contract set_limit].
    rewrite N.min_l by lia.
    change (engine_new address (e_version E) (L - s_gas s) false (s_world s)) with (set_limit (L - s_gas s) (engine_new address (e_version E) lim false (s_world s))).
    destruct (H1 (L - s_gas s) L ltac:(lia) ltac:(lia)) as [-> | ->]; auto.
    change (set_world (s_world (set_limit (L - s_gas s) c1)) (set_limit L s1)) with (set_limit L (set_world (s_world c1) s1)).
    destruct (H2 L (L - s_gas s) ltac:(lia) ltac:(lia)) as [-> | ->]; auto.
  Qed.
  Lemma sim_start_setup a u : mono (start_setup E a u).
  Proof. unfold start_setup. mono_auto. Qed.
  Lemma sim_add_deposit d : mono (add_deposit E d).
  Proof. unfold add_deposit. mono_auto. Qed.
  Lemma sim_op_setup d l : mono (op_setup E d l).
  Proof. unfold op_setup. mono_auto. Qed.
  Hint Resolve sim_start_setup sim_add_deposit sim_op_setup : mono.
  Theorem sim_exec_call depth ex address user deposit name args is_init : mono (exec_call E depth ex address user deposit name args is_init).
  Proof. unfold exec_call. mono_auto. apply sim_run_method. intros. apply sim_remote_call. Qed.
End EXEC.
