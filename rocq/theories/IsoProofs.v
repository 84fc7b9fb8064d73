(** What a call does depends on the storage of no other contracts than those its transaction has locked, and it writes to no others *)
Require Import List Arith NArith ZArith Bool Lia.
From Verif Require Import BytesLib OrdLib VarModel InstrModel EngineModel ExecModel StorModel.
From Verif Require StorProofs EngineUpper.
Import ListNotations.
Open Scope N_scope.

(** the contracts of all that is kept in a cache *)
Record ram_in (P : addr -> bool) (r : ram) : Prop := mk_ram_in {
  ri_mem : forall e, In e (r_mem r) -> P (fst (fst e)) = true;
  ri_ent : forall e, In e (r_ent r) -> P (fst (fst e)) = true;
  ri_keys : forall e, In e (r_keys r) -> P (fst (fst e)) = true;
  ri_bal : forall e, In e (r_bal r) -> P (fst (fst e)) = true }.
(** backends that agree on some contracts *)
Record agree (P : addr -> bool) (bk bk' : backend) : Prop := mk_agree {
  ag_read : forall c a, P c = true -> bk_read bk' c a = bk_read bk c a;
  ag_entry : forall c a k, P c = true -> bk_entry bk' c a k = bk_entry bk c a k;
  ag_lookup : forall c v, P c = true -> bk_lookup bk' c v = bk_lookup bk c v;
  ag_balance : forall c cur, P c = true -> bk_balance bk' c cur = bk_balance bk c cur }.
Definition with_backend (bk : backend) (E : env) : env :=
  mk_env bk (e_ext E) (e_contract E) (e_binary E) (e_read_cost E) (e_fee_exec E) (e_hf2 E) (e_network E) (e_height E) (e_txid E) (e_version E)
         (e_deploy E) (e_locked E).
Lemma ram_in_write P r c a v r1 : P c = true -> ram_in P r -> ram_write r c a v = Some r1 -> ram_in P r1.
Proof.
  intros PC [H1 H2 H3 H4]. unfold ram_write.
  assert (K : ram_in P (mk_ram (((c, a), v) :: r_mem r) (r_ent r) (if f_key (sv_fl v) then ((c, sv_val v), a) :: r_keys r else r_keys r) (r_bal r))).
  { split; cbn; auto; intros e; [intros [<-|I]; auto|]. destruct (f_key _); auto. intros [<-|I]; auto. }
  destruct (ram_read r c a) as [o|]; [destruct (f_key (sv_fl o)); [discriminate|]|]; intros [= <-]; exact K.
Qed.
Lemma ram_in_write_entry P r c a k v : P c = true -> ram_in P r -> ram_in P (ram_write_entry r c a k v).
Proof. intros PC [H1 H2 H3 H4]. split; cbn; auto. intros e [<-|I]; auto. Qed.
Lemma ram_in_balance P r c cur n : P c = true -> ram_in P r -> ram_in P (ram_set_balance r c cur n).
Proof. intros PC [H1 H2 H3 H4]. split; cbn; auto. intros e [<-|I]; auto. Qed.

Section ISO.
  Variable E : env.
  Let P := e_locked E.
  Let bk := e_backend E.
  Variable bk' : backend.
  Hypothesis AG : agree P bk bk'.
  Let E' := with_backend bk' E.
  Let x := e_ext E.
  Lemma ram_in_cache r c cur : P c = true -> ram_in P r -> ram_in P (snd (cache_balance bk r c cur)).
  Proof. intros PC R. unfold cache_balance. destruct (ram_balance r c cur); auto. destruct (bk_balance bk c cur); auto. now apply ram_in_balance. Qed.

  Definition good (s : st) : Prop := P (s_contract s) = true /\ ram_in P (s_ram s).
  Definition same {A} (m m' : M A) : Prop := forall s, good s -> m s = m' s /\ forall a s1, m s = Ok a s1 -> s_contract s1 = s_contract s /\ good s1.
  Lemma same_ret A (a : A) : same (ret a) (ret a).
  Proof. intros s G. split; auto. now intros ? ? [= <- <-]. Qed.
  Lemma same_throw A : same (@throw A) throw.
  Proof. intros s G. split; auto. intros ? ? [=]. Qed.
  Lemma same_undefined A : same (@undefined A) undefined.
  Proof. intros s G. split; auto. intros ? ? [=]. Qed.
  Lemma same_fuel A : same (fun _ => @Fuel A) (fun _ => Fuel).
  Proof. intros s G. split; auto. intros ? ? [=]. Qed.
  Lemma same_bind A B (m m' : M A) (k k' : A -> M B) : same m m' -> (forall a, same (k a) (k' a)) -> same (bind m k) (bind m' k').
  Proof.
    intros H K s G. unfold bind. destruct (H s G) as (<- & H1). destruct (m s) as [a s1| | |]; try (split; [reflexivity|discriminate]).
    destruct (H1 a s1 eq_refl) as (C1 & G1). destruct (K a s1 G1) as (EQ & H2). split; auto. intros b s2 E2. destruct (H2 b s2 E2). split; auto. congruence.
  Qed.
  Lemma same_get A (k k' : st -> M A) : (forall s, good s -> same (k s) (k' s)) -> same (bind get k) (bind get k').
  Proof. intros H s G. unfold bind, get. apply (H s G s G). Qed.
  Lemma same_modify f : (forall s, s_contract (f s) = s_contract s) -> (forall s, good s -> ram_in P (s_ram (f s))) -> same (modify f) (modify f).
  Proof. intros C R s G. split; auto. intros a s1 [= <- <-]. split; auto. split; auto. rewrite C. apply G. Qed.
  Lemma same_check_gas : same check_gas check_gas.
  Proof. intros s G. split; auto. unfold check_gas. intros a s1. destruct (_ <? _); intros [= <- <-]. auto. Qed.
  Lemma same_add_gas n : same (add_gas n) (add_gas n).
  Proof. apply same_modify; auto. intros s G. apply G. Qed.
  Lemma same_put l o : same (put l o) (put l o).
  Proof. apply same_modify; intros; destruct l; auto; apply H. Qed.
  Lemma same_put_new l rc f v : same (put_new l rc f v) (put_new l rc f v).
  Proof. intros s G. split; auto. intros a s1 [= <- <-]. destruct l; split; auto. Qed.
  Create HintDb iso.
  Hint Resolve same_ret same_throw same_undefined same_fuel same_check_gas same_add_gas same_put same_put_new : iso.
  Ltac iso_step :=
    match goal with
    | |- same (bind get _) _ => apply same_get; [intros]
    | |- same (bind _ _) _ => apply same_bind; [|intros]
    | |- same (modify _) _ => apply same_modify; [intros; reflexivity|let G := fresh in intros ? G; apply G]
    | |- same (let '(_, _) := ?b in _) _ => destruct b
    | |- same (if ?b then _ else _) _ => destruct b
    | |- same (match ?b with _ => _ end) _ => destruct b
    | |- same _ _ => solve [auto with iso]
    end.
  Ltac iso_auto := repeat (cbv beta zeta; iso_step).
  Lemma same_load r : same (load r) (load r).
  Proof. unfold load. iso_auto. Qed.
  Lemma same_charge_read v : same (charge_read v) (charge_read v).
  Proof. unfold charge_read. iso_auto. Qed.
  Hint Resolve same_load same_charge_read : iso.
  Lemma same_stor_read a : same (stor_read bk a) (stor_read bk' a).
  Proof. unfold stor_read. apply same_get. intros s (PC & R). unfold cache_read. rewrite (ag_read _ _ _ AG) by auto. apply same_bind; auto with iso. Qed.
  Lemma same_stor_entry a k : same (stor_entry bk a k) (stor_entry bk' a k).
  Proof. unfold stor_entry. apply same_get. intros s (PC & R). unfold cache_entry. rewrite (ag_entry _ _ _ AG) by auto. apply same_bind; auto with iso. Qed.
  Lemma same_stor_lookup v : same (stor_lookup bk v) (stor_lookup bk' v).
  Proof.
    unfold stor_lookup. apply same_bind; [auto with iso|]. intros _. apply same_bind; [auto with iso|]. intros _. apply same_get. intros s (PC & R).
    unfold cache_lookup. rewrite (ag_lookup _ _ _ AG) by auto. auto with iso.
  Qed.
  Lemma same_cache r c cur : P c = true -> cache_balance bk' r c cur = cache_balance bk r c cur.
  Proof. intros PC. unfold cache_balance. now rewrite (ag_balance _ _ _ AG) by auto. Qed.
  Lemma same_stor_balance c : same (stor_balance bk c) (stor_balance bk' c).
  Proof.
    unfold stor_balance. apply same_bind; [auto with iso|]. intros _. apply same_bind; [auto with iso|]. intros _. apply same_get. intros s (PC & R).
    rewrite same_cache by auto. pose proof (ram_in_cache (s_ram s) (s_contract s) c PC R) as R1. destruct (cache_balance bk _ _ _) as (n, r). cbn [snd] in R1.
    apply same_bind; [|auto with iso]. apply same_modify; auto.
  Qed.
  Lemma same_put_stored l v : same (put_stored l v) (put_stored l v).
  Proof. unfold put_stored. iso_auto. Qed.
  Hint Resolve same_stor_read same_stor_entry same_stor_lookup same_stor_balance same_put_stored : iso.
  Lemma same_read a b : same (read bk a b) (read bk' a b).
  Proof. unfold read. iso_auto. Qed.
  Hint Resolve same_read : iso.
  Lemma same_read_fail a : same (read_fail bk a) (read_fail bk' a).
  Proof. unfold read_fail. iso_auto. Qed.
  Lemma same_read_entry a k : same (read_entry bk a k) (read_entry bk' a k).
  Proof. unfold read_entry. iso_auto. Qed.
  Hint Resolve same_read_fail same_read_entry : iso.
  Lemma same_read_entry_fail a k : same (read_entry_fail bk a k) (read_entry_fail bk' a k).
  Proof. unfold read_entry_fail. iso_auto. Qed.
  Lemma same_read_uint a : same (read_uint bk a) (read_uint bk' a).
  Proof. unfold read_uint. iso_auto. Qed.
  Lemma same_read_string a : same (read_string bk a) (read_string bk' a).
  Proof. unfold read_string. iso_auto. Qed.
  Lemma same_read_binary a : same (read_binary bk a) (read_binary bk' a).
  Proof. unfold read_binary. iso_auto. Qed.
  Lemma same_to_addr d : same (to_addr d) (to_addr d).
  Proof. unfold to_addr. iso_auto. Qed.
  Lemma same_addref a : same (addref bk a) (addref bk' a).
  Proof. unfold addref. iso_auto. Qed.
  Hint Resolve same_read_entry_fail same_read_uint same_read_string same_read_binary same_to_addr same_addref : iso.
  Section ERASE.
    Variables er er' : loc -> M unit.
    Hypothesis same_er : forall l, same (er l) (er' l).
    Hint Resolve same_er : iso.
    Lemma same_erase_mem_with a : same (erase_mem_with bk er a) (erase_mem_with bk' er' a).
    Proof. unfold erase_mem_with. iso_auto. Qed.
    Hint Resolve same_erase_mem_with : iso.
    Lemma same_unref_with a : same (unref_with bk er a) (unref_with bk' er' a).
    Proof. unfold unref_with. iso_auto. Qed.
    Lemma same_erase_keys_with a ks : same (erase_keys_with er a ks) (erase_keys_with er' a ks).
    Proof. induction ks; cbn [erase_keys_with]; iso_auto. Qed.
    Hint Resolve same_unref_with same_erase_keys_with : iso.
    Lemma same_erase_entries_with a : same (erase_entries_with er a) (erase_entries_with er' a).
    Proof. unfold erase_entries_with. iso_auto. Qed.
    Hint Resolve same_erase_entries_with : iso.
    Lemma same_clear_with o : same (clear_with bk er o) (clear_with bk' er' o).
    Proof. unfold clear_with. iso_auto. Qed.
  End ERASE.
  Lemma same_erase_loc n : forall l, same (erase_loc bk n l) (erase_loc bk' n l).
  Proof.
    induction n as [|n IH]; intros l; cbn [erase_loc]; iso_auto. now apply same_clear_with.
  Qed.
  Lemma same_er l : same (er bk l) (er bk' l). Proof. apply same_erase_loc. Qed.
  Lemma same_erase_mem a : same (erase_mem bk a) (erase_mem bk' a). Proof. apply same_erase_mem_with, same_er. Qed.
  Lemma same_unref a : same (unref bk a) (unref bk' a). Proof. apply same_unref_with, same_er. Qed.
  Lemma same_clear o : same (clear bk o) (clear bk' o). Proof. apply same_clear_with, same_er. Qed.
  Hint Resolve same_er same_erase_mem same_unref same_clear : iso.
  Lemma same_assign_loc l v : same (assign_loc bk l v) (assign_loc bk' l v).
  Proof. unfold assign_loc. iso_auto. Qed.
  Lemma same_load_for_write a : same (load_for_write bk a) (load_for_write bk' a).
  Proof. unfold load_for_write. iso_auto. Qed.
  Lemma same_check_init a : same (check_init a) (check_init a).
  Proof. unfold check_init. iso_auto. Qed.
  Hint Resolve same_assign_loc same_load_for_write same_check_init : iso.
  Lemma same_assign a v : same (assign bk a v) (assign bk' a v).
  Proof. unfold assign. iso_auto. Qed.
  Hint Resolve same_assign : iso.
  Lemma same_write_gen cont cont' l r : (forall o, same (cont o) (cont' o)) -> same (write_gen bk cont l r) (write_gen bk' cont' l r).
  Proof. intros. unfold write_gen. iso_auto. Qed.
  Lemma same_write_ent l r : same (write_ent bk l r) (write_ent bk' l r).
  Proof. apply same_write_gen. intros. apply same_throw. Qed.
  Hint Resolve same_write_ent : iso.
  Lemma same_write_entry a k r : same (write_entry bk a k r) (write_entry bk' a k r).
  Proof. unfold write_entry. iso_auto. Qed.
  Hint Resolve same_write_entry : iso.
  Lemma same_copy_array d r n : forall i, same (copy_array bk d r n i) (copy_array bk' d r n i).
  Proof. induction n; intros; cbn [copy_array]; iso_auto. Qed.
  Lemma same_copy_map d r ks : same (copy_map bk d r ks) (copy_map bk' d r ks).
  Proof. induction ks; intros; cbn [copy_map]; iso_auto. Qed.
  Hint Resolve same_copy_array same_copy_map : iso.
  Lemma same_write_container d r o : same (write_container bk d r o) (write_container bk' d r o).
  Proof. unfold write_container. iso_auto. Qed.
  Hint Resolve same_write_container : iso.
  Lemma same_write a r : same (write bk a r) (write bk' a r).
  Proof. unfold write. iso_auto. apply same_write_gen. auto with iso. Qed.
  Hint Resolve same_write : iso.
  Lemma same_write_val a v : same (write_val bk a v) (write_val bk' a v).
  Proof. apply same_write. Qed.
  Lemma same_write_opt a v : same (write_opt bk a v) (write_opt bk' a v).
  Proof. apply same_write. Qed.
  Hint Resolve same_write_val same_write_opt : iso.
  Lemma same_alloc : same (alloc bk) (alloc bk').
  Proof. unfold alloc. iso_auto. Qed.
  Hint Resolve same_alloc : iso.
  Lemma same_lookup r b : same (lookup bk r b) (lookup bk' r b).
  Proof. unfold lookup. iso_auto. Qed.
  Hint Resolve same_lookup : iso.
  Lemma same_lookup_addr a b : same (lookup_addr bk a b) (lookup_addr bk' a b).
  Proof. unfold lookup_addr. iso_auto. Qed.
  Lemma same_push_back_ref d r : same (push_back_ref bk d r) (push_back_ref bk' d r).
  Proof. unfold push_back_ref. iso_auto. Qed.
  Hint Resolve same_lookup_addr same_push_back_ref : iso.
  Lemma same_push_back d s : same (push_back bk d s) (push_back bk' d s).
  Proof. unfold push_back. iso_auto. Qed.
  Lemma same_erase_entry a k : same (erase_entry bk a k) (erase_entry bk' a k).
  Proof. unfold erase_entry. iso_auto. Qed.
  Hint Resolve same_push_back same_erase_entry : iso.
  Lemma same_pop_back d s : same (pop_back bk d s) (pop_back bk' d s).
  Proof. unfold pop_back. iso_auto. Qed.
  Lemma same_read_key a k : same (read_key bk a k) (read_key bk' a k).
  Proof. unfold read_key. iso_auto. Qed.
  Lemma same_erase_key a k : same (erase_key bk a k) (erase_key bk' a k).
  Proof. unfold erase_key. iso_auto. Qed.
  Lemma same_copy d s : same (copy bk d s) (copy bk' d s).
  Proof. unfold copy. iso_auto. Qed.
  Lemma same_clone d s : same (clone bk d s) (clone bk' d s).
  Proof. unfold clone. iso_auto. Qed.
  Hint Resolve same_pop_back same_read_key same_erase_key same_copy same_clone : iso.
  Lemma same_vget d a k h : same (vget bk d a k h) (vget bk' d a k h).
  Proof. unfold vget. iso_auto. Qed.
  Lemma same_vset d a k : same (vset bk d a k) (vset bk' d a k).
  Proof. unfold vset. iso_auto. Qed.
  Lemma same_verase a k : same (verase bk a k) (verase bk' a k).
  Proof. unfold verase. iso_auto. Qed.
  Lemma same_concat_array d r n : forall i, same (concat_array bk d r n i) (concat_array bk' d r n i).
  Proof. induction n; intros; cbn [concat_array]; iso_auto. Qed.
  Lemma same_bin_ok n : same (bin_ok n) (bin_ok n).
  Proof. unfold bin_ok. iso_auto. Qed.
  Hint Resolve same_vget same_vset same_verase same_concat_array same_bin_ok : iso.
  Lemma same_concat d l r : same (concat bk d l r) (concat bk' d l r).
  Proof. unfold concat. iso_auto. Qed.
  Lemma same_vmemcpy d s c o : same (vmemcpy bk d s c o) (vmemcpy bk' d s c o).
  Proof. unfold vmemcpy. iso_auto. Qed.
  Lemma same_vsha256 d s : same (vsha256 bk x d s) (vsha256 bk' x d s).
  Proof. unfold vsha256. iso_auto. Qed.
  Lemma same_vverify d m p s : same (vverify bk x d m p s) (vverify bk' x d m p s).
  Proof. unfold vverify. iso_auto. Qed.
  Lemma same_opt A (o : option A) : same (opt o) (opt o).
  Proof. unfold opt. iso_auto. Qed.
  Lemma same_alloc_bin d mk b : same (alloc_bin bk d mk b) (alloc_bin bk' d mk b).
  Proof. unfold alloc_bin. iso_auto. Qed.
  Hint Resolve same_concat same_vmemcpy same_vsha256 same_vverify same_opt same_alloc_bin : iso.
  Lemma same_conv d s df sf : same (conv bk x d s df sf) (conv bk' x d s df sf).
  Proof. unfold conv. iso_auto. Qed.
  Lemma same_parse_memo a : same (parse_memo bk a) (parse_memo bk' a).
  Proof. unfold parse_memo. iso_auto. Qed.
  Lemma same_get_balance c : same (get_balance bk c) (get_balance bk' c).
  Proof. unfold get_balance. iso_auto. Qed.
  Hint Resolve same_conv same_parse_memo same_get_balance : iso.
  Lemma same_vsend a v c m : same (vsend bk a v c m) (vsend bk' a v c m).
  Proof. unfold vsend. iso_auto. Qed.
  Lemma same_vmint a v m : same (vmint bk a v m) (vmint bk' a v m).
  Proof. unfold vmint. iso_auto. Qed.
  Lemma same_read_balance d c : same (read_balance bk d c) (read_balance bk' d c).
  Proof. unfold read_balance. iso_auto. Qed.
  Lemma same_get_frame : same get_frame get_frame.
  Proof. unfold get_frame. iso_auto. Qed.
  Lemma same_jump ip : same (jump ip) (jump ip).
  Proof. unfold jump. iso_auto. Qed.
  Hint Resolve same_vsend same_vmint same_read_balance same_get_frame same_jump : iso.
  Lemma same_call ip sp : same (call ip sp) (call ip sp).
  Proof. unfold call. iso_auto. Qed.
  Lemma same_clear_addrs l : same (clear_addrs bk l) (clear_addrs bk' l).
  Proof. induction l; cbn [clear_addrs]; iso_auto. Qed.
  Hint Resolve same_call same_clear_addrs : iso.
  Lemma same_clear_stack o : same (clear_stack bk o) (clear_stack bk' o).
  Proof. unfold clear_stack. iso_auto. Qed.
  Hint Resolve same_clear_stack : iso.
  Lemma same_do_ret : same (do_ret bk) (do_ret bk').
  Proof. unfold do_ret. iso_auto. Qed.
  Lemma same_deref a : same (deref bk a) (deref bk' a).
  Proof. unfold deref. iso_auto. Qed.
  Hint Resolve same_do_ret same_deref : iso.
  Lemma same_deref_addr a f : same (deref_addr bk a f) (deref_addr bk' a f).
  Proof. unfold deref_addr. iso_auto. Qed.
  Hint Resolve same_deref_addr : iso.
  Lemma same_deref_value a f : same (deref_value bk a f) (deref_value bk' a f).
  Proof. unfold deref_value. iso_auto. Qed.
  Hint Resolve same_deref_value : iso.
  Section RUN.
  Variables remote remote' : bytes -> bytes -> N -> M unit.
  Variables readc readc' : addr -> bytes -> N -> M unit.
  Hypothesis same_remote : forall a b n, same (remote a b n) (remote' a b n).
  Hypothesis same_readc : forall a b n, same (readc a b n) (readc' a b n).
  Hint Resolve same_remote same_readc : iso.
  Lemma same_rcall a b c d : same (rcall bk remote a b c d) (rcall bk' remote' a b c d).
  Proof. unfold rcall. iso_auto. Qed.
  Lemma same_cread a b c : same (cread bk readc a b c) (cread bk' readc' a b c).
  Proof. unfold cread. iso_auto. Qed.
  Lemma same_adr_a i : same (adr_a bk i) (adr_a bk' i). Proof. apply same_deref_addr. Qed.
  Lemma same_adr_b i : same (adr_b bk i) (adr_b bk' i). Proof. apply same_deref_addr. Qed.
  Lemma same_adr_c i : same (adr_c bk i) (adr_c bk' i). Proof. apply same_deref_addr. Qed.
  Lemma same_adr_d i : same (adr_d bk i) (adr_d bk' i). Proof. apply same_deref_addr. Qed.
  Lemma same_val_a i : same (val_a bk i) (val_a bk' i). Proof. apply same_deref_value. Qed.
  Lemma same_val_b i : same (val_b bk i) (val_b bk' i). Proof. apply same_deref_value. Qed.
  Lemma same_val_c i : same (val_c bk i) (val_c bk' i). Proof. apply same_deref_value. Qed.
  Lemma same_val_d i : same (val_d bk i) (val_d bk' i). Proof. apply same_deref_value. Qed.
  Lemma same_next : same next next.
  Proof. unfold next. iso_auto. Qed.
  Hint Resolve same_rcall same_cread same_adr_a same_adr_b same_adr_c same_adr_d same_val_a same_val_b same_val_c same_val_d same_next : iso.
  Lemma same_arith i f : same (arith bk i f) (arith bk' i f).
  Proof. unfold arith. iso_auto. Qed.
  Lemma same_logic i f g : same (logic bk i f g) (logic bk' i f g).
  Proof. unfold logic. iso_auto. Qed.
  Lemma same_shift i f : same (shift bk i f) (shift bk' i f).
  Proof. unfold shift. iso_auto. Qed.
  Lemma same_cmp i b f : same (cmp bk i b f) (cmp bk' i b f).
  Proof. unfold cmp. iso_auto. Qed.
  Hint Resolve same_arith same_logic same_shift same_cmp : iso.
  Lemma same_exec_op i : same (exec_op bk x remote readc i) (exec_op bk' x remote' readc' i).
  Proof. unfold exec_op. iso_auto. Qed.
  Hint Resolve same_exec_op : iso.
  Lemma same_step : same (step bk x remote readc) (step bk' x remote' readc').
  Proof. unfold step, exec. iso_auto. Qed.
  Hint Resolve same_step : iso.
  Lemma same_run f : same (run bk x remote readc f) (run bk' x remote' readc' f).
  Proof. induction f as [|f IH]; cbn [run]; apply same_get; intros s G; destruct (s_frames s); auto with iso. apply same_bind; auto with iso. Qed.
  Lemma same_init : same init init.
  Proof. unfold init. iso_auto. Qed.
  Lemma same_begin ip : same (begin ip) (begin ip).
  Proof. unfold begin. iso_auto. Qed.
  Lemma same_stor_write a o : same (stor_write a o) (stor_write a o).
  Proof.
    unfold stor_write. apply same_get. intros s0 G0. destruct (s_ro s0); [auto with iso|]. destruct (negb _); [auto with iso|]. destruct (_ && _); [auto with iso|].
    apply same_bind; [auto with iso|]. intros _. apply same_bind; [auto with iso|]. intros _. apply same_get. intros s (PC & R).
    destruct (ram_write _ _ _ _) eqn:W; [|auto with iso]. apply same_modify; auto. intros. cbn. eapply ram_in_write; [exact PC|exact R|exact W].
  Qed.
  Lemma same_stor_write_entry a k o : same (stor_write_entry a k o) (stor_write_entry a k o).
  Proof.
    unfold stor_write_entry. apply same_get. intros s0 G0. destruct (s_ro s0); [auto with iso|]. destruct (negb _); [auto with iso|]. destruct (negb _); [auto with iso|].
    apply same_bind; [auto with iso|]. intros _. apply same_bind; [auto with iso|]. intros _. apply same_modify; auto. intros s (PC & R). now apply ram_in_write_entry.
  Qed.
  Hint Resolve same_init same_begin same_stor_write same_stor_write_entry : iso.
  Lemma same_commit_mem l : same (commit_mem l) (commit_mem l).
  Proof. induction l as [|(a, o) l IH]; cbn [commit_mem]; iso_auto. Qed.
  Lemma same_commit_ent l : same (commit_ent l) (commit_ent l).
  Proof. induction l as [|((a, k), o) l IH]; cbn [commit_ent]; iso_auto. Qed.
  Hint Resolve same_commit_mem same_commit_ent : iso.
  Lemma same_commit : same (commit bk) (commit bk').
  Proof. unfold commit. iso_auto. Qed.
  Hint Resolve same_commit : iso.
  Lemma same_execute f ip c : same (execute bk x remote readc f ip c) (execute bk' x remote' readc' f ip c).
  Proof. unfold execute. apply same_bind; [apply same_begin|intros _]. apply same_bind; [apply same_run|intros _]. apply same_bind; [destruct c; auto with iso|auto with iso]. Qed.
  End RUN.
  Hint Resolve same_init same_begin same_commit : iso.
  Lemma same_set_deposit c a : same (set_deposit bk c a) (set_deposit bk' c a).
  Proof. unfold set_deposit. iso_auto. Qed.
  Lemma same_load_constants l : forall d, same (load_constants bk l d) (load_constants bk' l d).
  Proof. induction l; intros; cbn [load_constants]; iso_auto. Qed.
  Hint Resolve same_load_constants : iso.
  Lemma same_load_binary c k : same (load_binary bk c k) (load_binary bk' c k).
  Proof. unfold load_binary. iso_auto. Qed.
  Hint Resolve same_set_deposit same_load_binary : iso.

  (** two engines *)
  Definition same2 {A} (m m' : MM A) : Prop := forall d s, good d -> good s -> m (d, s) = m' (d, s) /\ forall a d1 s1, m (d, s) = Ok2 a d1 s1 ->
    s_contract d1 = s_contract d /\ s_contract s1 = s_contract s /\ good d1 /\ good s1.
  Lemma same2_ret A (a : A) : same2 (ret2 a) (ret2 a).
  Proof. intros d s G G'. split; auto. now intros b d1 s1 [= <- <- <-]. Qed.
  Lemma same2_throw A : same2 (@throw2 A) throw2.
  Proof. intros d s G G'. split; auto. intros b d1 s1 [=]. Qed.
  Lemma same2_bind A B (m m' : MM A) (k k' : A -> MM B) : same2 m m' -> (forall a, same2 (k a) (k' a)) -> same2 (bind2 m k) (bind2 m' k').
  Proof.
    intros H K d s G G'. unfold bind2. destruct (H d s G G') as (<- & H1). destruct (m (d, s)) as [a d1 s1| | |]; try (split; [reflexivity|discriminate]).
    destruct (H1 a d1 s1 eq_refl) as (C1 & C2 & G1 & G2). destruct (K a d1 s1 G1 G2) as (EQ & H2). split; auto. intros b d2 s2 E2.
    destruct (H2 b d2 s2 E2) as (C3 & C4 & G3 & G4). repeat split; try congruence; try apply G3; apply G4.
  Qed.
  Lemma same2_dst A (m m' : M A) : same m m' -> same2 (on_dst m) (on_dst m').
  Proof.
    intros H d s G G'. unfold on_dst. destruct (H d G) as (<- & H1). split; auto. intros b d1 s1. destruct (m d) as [a d2| | |] eqn:E1; try discriminate. intros [= <- <- <-].
    destruct (H1 a d2 eq_refl) as (C1 & G1). auto.
  Qed.
  Lemma same2_src A (m m' : M A) : same m m' -> same2 (on_src m) (on_src m').
  Proof.
    intros H d s G G'. unfold on_src. destruct (H s G') as (<- & H1). split; auto. intros b d1 s1. destruct (m s) as [a d2| | |] eqn:E1; try discriminate. intros [= <- <- <-].
    destruct (H1 a d2 eq_refl) as (C1 & G1). auto.
  Qed.
  Lemma same2_each A (f f' : A -> MM unit) l : (forall a, same2 (f a) (f' a)) -> same2 (each f l) (each f' l).
  Proof. intros H. induction l; cbn [each]; [apply same2_ret|]. apply same2_bind; auto. Qed.

  Ltac env := change (e_backend E) with bk; change (e_backend E') with bk'; change (e_ext E') with (e_ext E); change (e_contract E') with (e_contract E);
    change (e_binary E') with (e_binary E); change (e_fee_exec E') with (e_fee_exec E); change (e_hf2 E') with (e_hf2 E); change (e_network E') with (e_network E);
    change (e_height E') with (e_height E); change (e_txid E') with (e_txid E); change (e_version E') with (e_version E); change (e_deploy E') with (e_deploy E);
    change (e_locked E') with (e_locked E).
  Lemma same_charge_contract a : same (charge_contract E a) (charge_contract E' a).
  Proof. unfold charge_contract. apply same_get. intros s G. cbn [e_read_cost E' with_backend]. destruct (_ <? _); auto with iso. Qed.
  Lemma same_handle p v : same (handle E p v) (handle E' p v).
  Proof. unfold handle. iso_auto. Qed.
  Lemma same_size_ok v : same (size_ok v) (size_ok v).
  Proof. unfold size_ok. iso_auto. Qed.
  Hint Resolve same_charge_contract same_handle same_size_ok : iso.
  Lemma same_assign_to t : forall n p, same (assign_to E n p t) (assign_to E' n p t).
  Proof.
    revert t. fix IH 1. intros t n p. destruct t as [| | | | |l|l|]; try (cbn [assign_to]; iso_auto; fail).
    - cbn [assign_to]. destruct n as [|n]; [apply same_throw|]. apply same_bind; [auto with iso|]. intros a. apply same_bind; [auto with iso|]. intros _.
      apply same_bind; [|intros; auto with iso]. generalize 0 as i.
      induction l as [|t l IHl]; intros i; [apply same_ret|]. apply same_bind; [apply IH|]. intros _. apply IHl.
    - cbn [assign_to]. destruct n as [|n]; [apply same_throw|]. apply same_bind; [auto with iso|]. intros a. apply same_bind; [auto with iso|]. intros _.
      apply same_bind; [|intros; auto with iso].
      induction l as [|(k, t) l IHl]; [apply same_ret|]. apply same_bind; [auto with iso|]. intros v. apply same_bind; [auto with iso|]. intros _.
      apply same_bind; [destruct (key_ok v); auto with iso|]. intros _. apply same_bind; [auto with iso|]. intros h. apply same_bind; [apply IH|]. intros _. apply IHl.
  Qed.
  Lemma same_assign_var d t : same (assign_var E d t) (assign_var E' d t).
  Proof. apply same_assign_to. Qed.
  Hint Resolve same_assign_var : iso.
  Lemma same_set_args l : forall d, same (set_args E l d) (set_args E' l d).
  Proof. induction l; intros; cbn [set_args]; iso_auto. Qed.
  Lemma same2_vcopy n : forall p v, same2 (vcopy E n p v) (vcopy E' n p v).
  Proof.
    induction n as [|n IH]; intros p v; cbn [vcopy]; [apply same2_throw|].
    assert (RS : forall a, same2 (bind2 (on_src (read bk a false)) (fun o => ret2 (option_map (fun o => (o_val o, f_stored (o_fl o))) o))) (bind2 (on_src (read bk' a false)) (fun o => ret2 (option_map (fun o => (o_val o, f_stored (o_fl o))) o)))).
    { intros a. apply same2_bind; [apply same2_src; auto with iso|]. intros. apply same2_ret. }
    assert (W : forall v, same2 (on_dst (match p with PVar a => write bk a (STmp v) | PEntry a k => write_entry bk a k (STmp v) end)) (on_dst (match p with PVar a => write bk' a (STmp v) | PEntry a k => write_entry bk' a k (STmp v) end))).
    { intros w. apply same2_dst. destruct p; auto with iso. }
    apply same2_bind; [|intros; apply same2_dst; auto with iso].
    destruct v as [(v, st)|]; [|apply same2_ret]. destruct v; try apply W.
    - apply same2_bind; [apply same2_dst; auto with iso|]. intros h. apply same2_bind; [apply RS|]. intros o. apply same2_bind; [apply IH|]. intros _. apply W.
    - destruct p; [|apply same2_throw]. apply same2_bind; [apply same2_dst; auto with iso|]. intros _. apply same2_each. intros i.
      apply same2_bind; [apply same2_src; auto with iso|]. intros o. apply IH.
    - destruct p; [|apply same2_throw]. destruct st; [apply same2_throw|]. apply same2_bind; [apply same2_dst; auto with iso|]. intros _.
      apply same2_bind; [apply same2_src; iso_auto|]. intros l. apply same2_each. intros e.
      apply same2_bind; [apply same2_src; auto with iso|]. intros o. apply same2_bind; [destruct o; [apply same2_dst; auto with iso|apply same2_ret]|]. intros k. apply IH.
  Qed.
  Lemma same2_copy_var d s : same2 (copy_var E d s) (copy_var E' d s).
  Proof. unfold copy_var. apply same2_bind; [apply same2_src; auto with iso|]. intros. apply same2_vcopy. Qed.
  Lemma same_prepare b name i : same (prepare E b name i) (prepare E' b name i).
  Proof. unfold prepare. env. iso_auto. Qed.
  Lemma same_settle l : same (settle E l) (settle E' l).
  Proof.
    induction l as [|o l IH]; cbn [settle]; [auto with iso|].
    apply same_get. intros s (PC & R). change (e_backend E) with bk. change (e_backend E') with bk'. rewrite same_cache by auto.
    pose proof (ram_in_cache (s_ram s) (s_contract s) (to_currency o) PC R) as R1. destruct (cache_balance bk _ _ _) as (n, r). cbn [snd] in R1.
    apply same_bind; [|intros _; exact IH].
    destruct n as [n|]; [|auto with iso]. destruct (_ <? _); [auto with iso|]. apply same_modify; auto. intros s2 (PC2 & R2). now apply ram_in_balance.
  Qed.
  Hint Resolve same_settle same_prepare same_set_args : iso.
  Lemma same_finish : same (finish E) (finish E').
  Proof. unfold finish. env. iso_auto. Qed.
  Lemma same_fetch a : same (fetch E a) (fetch E' a).
  Proof. unfold fetch. env. iso_auto. Qed.
  Hint Resolve same_finish same_fetch : iso.
  Lemma same_read_contract a f d : same (read_contract E a f d) (read_contract E' a f d).
  Proof. unfold read_contract. env. iso_auto. Qed.
  Lemma same_run_method remote remote' depends m : (forall a b n, same (remote depends a b n) (remote' depends a b n)) -> same (run_method E remote depends m) (run_method E' remote' depends m).
  Proof.
    intros H. unfold run_method. apply same_bind; [exact (same_write _ _)|]. intros _. apply same_bind; [exact (same_write _ _)|]. intros _.
    apply same_get. intros s G. apply same_bind; [apply same_execute; auto using same_read_contract|]. auto with iso.
  Qed.
  Lemma same2_copy_args n : forall i p, same2 (copy_args E n i p) (copy_args E' n i p).
  Proof. induction n; intros; cbn [copy_args]; [apply same2_ret|]. apply same2_bind; [apply same2_copy_var|auto]. Qed.
  Lemma same2_call_setup n p u a : same2 (call_setup E n p u a) (call_setup E' n p u a).
  Proof. unfold call_setup. apply same2_bind; [apply same2_copy_args|]. intros _. apply same2_dst. iso_auto. Qed.
  Lemma same2_call_child rm rm' b dp name setup setup' : (forall m, same (rm dp m) (rm' dp m)) -> same2 setup setup' -> same2 (call_child E rm b dp name setup) (call_child E' rm' b dp name setup').
  Proof.
    intros H S. unfold call_child. env. apply same2_bind; [destruct (e_hf2 E); auto using same2_ret|]. intros _. apply same2_bind; [apply same2_dst; auto with iso|]. intros m.
    apply same2_bind; [destruct (e_hf2 E); auto using same2_ret|]. intros _. apply same2_dst; auto.
  Qed.
  (** what a locked contract may call is locked *)
  Definition closed (ex : addr * list (bytes * addr)) : Prop := forall e, In e (snd ex) -> P (snd e) = true.
  Hypothesis CL : forall a k ex, P a = true -> e_contract E a = Some k -> k_exec k = Some ex -> closed ex.
  Hypothesis CD : forall k ex, P (e_txid E) = true -> e_deploy E = Some k -> k_exec k = Some ex -> closed ex.
  Lemma same_bind_q A B (Q : A -> Prop) (m m' : M A) (k k' : A -> M B) : same m m' -> (forall s a s1, m s = Ok a s1 -> Q a) ->
    (forall a, Q a -> same (k a) (k' a)) -> same (bind m k) (bind m' k').
  Proof.
    intros H HQ K s G. unfold bind. destruct (H s G) as (<- & H1). destruct (m s) as [a s1| | |] eqn:E1; try (split; [reflexivity|discriminate]).
    destruct (H1 a s1 eq_refl) as (C1 & G1). destruct (K a (HQ _ _ _ E1) s1 G1) as (EQ & H2). split; auto. intros b s2 E2. destruct (H2 b s2 E2). split; auto. congruence.
  Qed.
  Lemma opt_some A (o : option A) s a s1 : opt o s = Ok a s1 -> o = Some a.
  Proof. unfold opt. destruct o; [intros [= <- _]; reflexivity|discriminate]. Qed.
  Lemma fetched a s o s1 : fetch E a s = Ok o s1 -> (a = e_txid E /\ o = e_deploy E) \/ (o = None \/ o = e_contract E a).
  Proof.
    unfold fetch, bind at 1, get. destruct (addr_eqb a (e_txid E) && _) eqn:C.
    - apply andb_true_iff in C as (C & _). destruct (EngineUpper.addr_eqb_spec a (e_txid E)); [|discriminate]. intros [= <- _]. auto.
    - destruct (existsb _ _); [intros [= <- _]; auto|]. unfold bind at 1. destruct (charge_contract E a s); try discriminate.
      destruct (e_contract E a); cbn; intros [= <- _]; auto.
  Qed.
  Lemma lfind_In {V} k (l : list (bytes * V)) v : lfind addr_eqb k l = Some v -> exists e, In e l /\ snd e = v.
  Proof.
    induction l as [|(k', v') l IH]; [discriminate|]. rewrite EngineUpper.lfind_cons. destruct (addr_eqb k k'); [intros [= <-]; exists (k', v'); split; auto; now left|].
    intros H. destruct (IH H) as (e & I & <-). exists e. split; auto. now right.
  Qed.
  Lemma same_remote_call n : forall dp name m na, (forall e, In e dp -> P (snd e) = true) -> same (remote_call E n dp name m na) (remote_call E' n dp name m na).
  Proof.
    induction n as [|n IH]; intros dp name m na DP; cbn [remote_call]; env; [apply same_fuel|].
    apply (same_bind_q _ _ (fun a => P a = true)); [auto with iso| |].
    { intros s a s1 H. apply opt_some in H. destruct (lfind_In _ _ _ H) as (e & I & <-). auto. }
    intros address LK. apply (same_bind_q _ _ (fun o => forall k ex, o = Some k -> k_exec k = Some ex -> closed ex)); [auto with iso| |].
    { intros s o s1 H k ex -> EX. destruct (fetched _ _ _ _ H) as [(-> & D)|[D|D]]; [exact (CD k ex LK (eq_sym D) EX)|discriminate|exact (CL address k ex LK (eq_sym D) EX)]. }
    intros o HO. apply (same_bind_q _ _ (fun k => forall ex, k_exec k = Some ex -> closed ex)); [auto with iso| |].
    { intros s k s1 H. apply opt_some in H. intros ex. now apply HO. }
    intros k HK. apply (same_bind_q _ _ closed); [auto with iso| |].
    { intros s ex s1 H. apply opt_some in H. now apply HK. }
    intros ex CEX. apply same_bind; [auto with iso|]. intros _. apply same_bind; [auto with iso|]. intros _.
    apply same_bind; [auto with iso|]. intros f. intros s G. cbv zeta.
    set (sp := MEM_STACK + snd f). 
    set (child := engine_new address (e_version E) (s_limit s - N.min (s_gas s) (s_limit s)) false (s_world s)).
    assert (GC : good child) by (split; [exact LK|exact (proj2 G)]).
    assert (SC : same2 (call_child E (run_method E (remote_call E n)) (fst ex) (snd ex) m (call_setup E na sp (s_contract s) address))
                       (call_child E' (run_method E' (remote_call E' n)) (fst ex) (snd ex) m (call_setup E' na sp (s_contract s) address))).
    { apply same2_call_child; [|apply same2_call_setup]. intros. apply same_run_method; auto. }
    destruct (SC child s GC G) as (<- & H1). destruct (call_child E _ _ _ _ _ (child, s)) as [u c1 s1| | |]; [|split; [reflexivity|discriminate]..].
    destruct (H1 _ _ _ eq_refl) as (C1 & C2 & G1 & G2).
    assert (G3 : good (set_world (s_world c1) s1)) by (split; [exact (proj1 G2)|exact (proj2 G1)]).
    destruct (same2_copy_var sp MEM_STACK _ _ G3 G1) as (<- & H2). destruct (copy_var E _ _ _) as [u2 s2 c2| | |]; [|split; [reflexivity|discriminate]..].
    destruct (H2 _ _ _ eq_refl) as (C3 & C4 & G4 & G5). split; auto. intros a s3 AG3.
    assert (SA : same (bind (add_gas (s_gas c2)) (fun _ => check_gas)) (bind (add_gas (s_gas c2)) (fun _ => check_gas))) by iso_auto.
    destruct (proj2 (SA s2 G4) a s3 AG3) as (C5 & G6). split; auto. rewrite C5, C3. cbn. exact C2.
  Qed.
  Lemma same_start_setup a u : same (start_setup E a u) (start_setup E' a u).
  Proof. unfold start_setup. env. iso_auto. Qed.
  Lemma same_add_deposit d : same (add_deposit E d) (add_deposit E' d).
  Proof.
    unfold add_deposit. destruct d as [(cur, amount)|]; [|auto with iso]. apply same_get. intros s (PC & R).
    change (e_backend E) with bk. change (e_backend E') with bk'. rewrite same_cache by auto.
    pose proof (ram_in_cache (s_ram s) (s_contract s) cur PC R) as R1. destruct (cache_balance bk _ _ _) as (n, r). cbn [snd] in R1.
    apply same_modify; auto. intros s2 (PC2 & R2). now apply ram_in_balance.
  Qed.
  Lemma same_op_setup d l : same (op_setup E d l) (op_setup E' d l).
  Proof. unfold op_setup. env. iso_auto. Qed.
  Hint Resolve same_start_setup same_add_deposit same_op_setup : iso.
End ISO.
