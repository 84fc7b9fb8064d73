(** What a transaction that was executed took and gave *)
Require Import List Arith NArith ZArith Bool Lia.
From Verif Require Import BytesLib OrdLib VarModel InstrModel EngineModel EngineSpec EngineProofs EngineUpper ExecModel ExecSpec ExecProofs
  StorModel StorProofs TxModel TxSpec.
Import ListNotations.
Open Scope N_scope.

(** ** Sums *)
Fixpoint ksum {K} (f : K -> N) (l : list K) : N := match l with [] => 0 | k :: l => f k + ksum f l end.
Lemma ksum_app {K} (f : K -> N) l l' : ksum f (l ++ l') = ksum f l + ksum f l'.
Proof. induction l; simpl; lia. Qed.
Lemma ksum_ext {K} (f g : K -> N) l : (forall k, In k l -> f k = g k) -> ksum f l = ksum g l.
Proof. induction l; simpl; auto. intros H. rewrite (H a), IHl; auto. Qed.
Lemma ksum_add {K} (f g : K -> N) l : ksum (fun k => f k + g k) l = ksum f l + ksum g l.
Proof. induction l; simpl; lia. Qed.
Lemma ksum_zero {K} (f : K -> N) l : (forall k, In k l -> f k = 0) -> ksum f l = 0.
Proof. induction l; simpl; auto. intros H. rewrite (H a), IHl; auto. Qed.
Lemma ksum_one {K} (eqb : K -> K -> bool) (EQ : forall x y, Bool.reflect (x = y) (eqb x y)) k v l : NoDup l -> In k l ->
  ksum (fun k' => if eqb k k' then v else 0) l = v.
Proof.
  induction l as [|a l IH]; simpl; [tauto|]. intros ND H. inversion ND as [|? ? NI ND']; subst. destruct (EQ k a) as [->|NE].
  - rewrite ksum_zero; [lia|]. intros k H'. destruct (EQ a k); [congruence|auto].
  - destruct H as [->|H]; [congruence|]. rewrite IH; auto.
Qed.
Lemma in_sum_app cur l l' : in_sum cur (l ++ l') = in_sum cur l + in_sum cur l'.
Proof. induction l; simpl; auto. rewrite IHl. lia. Qed.
Lemma in_from_app a cur l l' : in_from a cur (l ++ l') = in_from a cur l + in_from a cur l'.
Proof. induction l; simpl; auto. rewrite IHl. lia. Qed.
Lemma out_to_app a cur l l' : out_to a cur (l ++ l') = out_to a cur l + out_to a cur l'.
Proof. induction l; simpl; auto. rewrite IHl. lia. Qed.
(** the increments of one currency *)
Definition dsum (cur : addr) (l : list ((addr * addr) * N)) : N :=
  fold_right (fun e n => (if addr_eqb (snd (fst e)) cur then snd e else 0) + n) 0 l.
Lemma total_all P l K : NoDup K -> (forall e, In e l -> In (fst e) K) ->
  ksum (fun k => if (P k : bool) then total k l else 0) K = fold_right (fun e n => (if P (fst e) then snd e else 0) + n) 0 l.
Proof.
  intros ND. induction l as [|e l IH]; intros H.
  - simpl. apply ksum_zero. intros k _. destruct (P k); auto.
  - simpl. rewrite <- IH by (intros; apply H; right; auto).
    rewrite <- (ksum_one bal_eqb bal_eqb_spec (fst e) (if P (fst e) then snd e else 0) K ND) by (apply H; left; auto).
    rewrite <- ksum_add. apply ksum_ext. intros k _. unfold total. simpl. destruct (bal_eqb_spec (fst e) k) as [<-|NE]; [|destruct (P k); lia].
    destruct (P (fst e)); lia.
Qed.
Lemma items_keys (l : list ((addr * addr) * N)) e : In e l -> In (fst e) (map fst (items bal_cmp (V := N) l)).
Proof.
  intros H. destruct (lfind bal_eqb (fst e) l) as [v|] eqn:L.
  - rewrite <- (items_find bal_cmp bal_cmp_total bal_eqb bal_eqb_spec) in L. apply lfind_in in L; [|apply bal_eqb_spec].
    apply (in_map fst) in L. exact L.
  - exfalso. induction l as [|(k, v) l IH]; simpl in *; [tauto|]. destruct (bal_eqb_spec (fst e) k) as [E|NE]; [discriminate|].
    destruct H as [<-|H]; auto.
Qed.
Lemma total_out (k : addr * addr) (l : list ((addr * addr) * N)) : ~ In k (map fst (items bal_cmp (V := N) l)) -> total k l = 0.
Proof.
  intros H. assert (forall e, In e l -> fst e <> k) as H' by (intros e He <-; apply H; now apply items_keys).
  clear H. induction l as [|e l IH]; auto. unfold total. simpl. destruct (bal_eqb_spec (fst e) k) as [E|NE].
  - exfalso. apply (H' e); simpl; auto.
  - apply IH. intros; apply H'; right; auto.
Qed.
Definition bal_dec (x y : addr * addr) : {x = y} + {x <> y}.
Proof. destruct (bal_eqb_spec x y); [left|right]; auto. Defined.
Lemma ksum_sub {K} (dec : forall x y : K, {x = y} + {x <> y}) (f : K -> N) l L : NoDup l -> NoDup L -> incl l L ->
  (forall k, In k L -> ~ In k l -> f k = 0) -> ksum f l = ksum f L.
Proof.
  revert L. induction l as [|a l IH]; intros L ND ND' I H.
  - simpl. symmetry. apply ksum_zero. intros k Hk. apply H; auto.
  - inversion ND as [|? ? NI ND2]; subst. destruct (in_split a L) as (L1 & L2 & ->); [apply I; left; auto|].
    pose proof (NoDup_remove_1 _ _ _ ND') as ND3. pose proof (NoDup_remove_2 _ _ _ ND') as NI3.
    simpl. rewrite (IH (L1 ++ L2)); auto.
    + rewrite !ksum_app. simpl. lia.
    + intros x Hx. specialize (I x (or_intror Hx)). rewrite in_app_iff in *. simpl in I. destruct I as [I|[->|I]]; auto. contradiction.
    + intros k Hk Nk. apply H.
      * rewrite in_app_iff in *. simpl. tauto.
      * simpl. intros [->|X]; auto.
Qed.
(** the two maps: what both have is neither an input nor an output *)
Section MAPS.
  Variables S D : list ((addr * addr) * N).
  Let Ks := map fst (items bal_cmp S).
  Let Kd := map fst (items bal_cmp D).
  Let K := nodup bal_dec (Ks ++ Kd).
  Lemma Ks_nd : NoDup Ks. Proof. apply items_nodup. apply bal_cmp_total. Qed.
  Lemma Kd_nd : NoDup Kd. Proof. apply items_nodup. apply bal_cmp_total. Qed.
  Lemma both_s P : ksum (fun k => if (P k : bool) then N.min (total k D) (total k S) else 0) Ks
                 = ksum (fun k => if P k then N.min (total k D) (total k S) else 0) K.
  Proof.
    apply (ksum_sub bal_dec); [apply Ks_nd|apply NoDup_nodup| |].
    - intros k H. apply nodup_In. apply in_app_iff. auto.
    - intros k _ H. rewrite (total_out k S) by exact H. destruct (P k); lia.
  Qed.
  Lemma both_d P : ksum (fun k => if (P k : bool) then N.min (total k D) (total k S) else 0) Kd
                 = ksum (fun k => if P k then N.min (total k D) (total k S) else 0) K.
  Proof.
    apply (ksum_sub bal_dec); [apply Kd_nd|apply NoDup_nodup| |].
    - intros k H. apply nodup_In. apply in_app_iff. auto.
    - intros k _ H. rewrite (total_out k D) by exact H. destruct (P k); lia.
  Qed.
  Lemma left_s P : ksum (fun k => if (P k : bool) then total k S - N.min (total k D) (total k S) else 0) Ks
     + ksum (fun k => if P k then N.min (total k D) (total k S) else 0) K = fold_right (fun e n => (if P (fst e) then snd e else 0) + n) 0 S.
  Proof.
    rewrite <- both_s, <- ksum_add, <- (total_all P S Ks Ks_nd) by (intros; now apply items_keys).
    apply ksum_ext. intros k _. destruct (P k); lia.
  Qed.
  Lemma left_d P : ksum (fun k => if (P k : bool) then total k D - N.min (total k D) (total k S) else 0) Kd
     + ksum (fun k => if P k then N.min (total k D) (total k S) else 0) K = fold_right (fun e n => (if P (fst e) then snd e else 0) + n) 0 D.
  Proof.
    rewrite <- both_d, <- ksum_add, <- (total_all P D Kd Kd_nd) by (intros; now apply items_keys).
    apply ksum_ext. intros k _. destruct (P k); lia.
  Qed.
End MAPS.
Lemma in_sum_flat cur (g : addr * addr -> N) l :
  in_sum cur (flat_map (fun k => if g k =? 0 then [] else [mk_txin (fst k) (snd k) (g k) None false 65535]) l)
  = ksum (fun k => if addr_eqb (snd k) cur then g k else 0) l.
Proof.
  induction l as [|k l IH]; simpl; auto. rewrite in_sum_app, IH. destruct (N.eqb_spec (g k) 0) as [E|E]; simpl; rewrite ?E; destruct (addr_eqb (snd k) cur); lia.
Qed.
Lemma in_from_flat a cur (g : addr * addr -> N) l :
  in_from a cur (flat_map (fun k => if g k =? 0 then [] else [mk_txin (fst k) (snd k) (g k) None false 65535]) l)
  = ksum (fun k => if bal_eqb k (a, cur) then g k else 0) l.
Proof.
  induction l as [|k l IH]; simpl; auto. rewrite in_from_app, IH. unfold bal_eqb at 2. simpl.
  destruct (N.eqb_spec (g k) 0) as [E|E]; simpl; rewrite ?E; destruct (addr_eqb (fst k) a && addr_eqb (snd k) cur); lia.
Qed.
Lemma out_sum_flat cur (g : addr * addr -> N) l :
  out_sum cur (flat_map (fun k => if g k =? 0 then [] else [mk_txout (fst k) (snd k) (g k) None]) l)
  = ksum (fun k => if addr_eqb (snd k) cur then g k else 0) l.
Proof.
  induction l as [|k l IH]; simpl; auto. rewrite out_sum_app, IH. destruct (N.eqb_spec (g k) 0) as [E|E]; simpl; rewrite ?E; destruct (addr_eqb (snd k) cur); lia.
Qed.
Lemma out_to_flat a cur (g : addr * addr -> N) l :
  out_to a cur (flat_map (fun k => if g k =? 0 then [] else [mk_txout (fst k) (snd k) (g k) None]) l)
  = ksum (fun k => if bal_eqb k (a, cur) then g k else 0) l.
Proof.
  induction l as [|k l IH]; simpl; auto. rewrite out_to_app, IH. unfold bal_eqb at 2. simpl.
  destruct (N.eqb_spec (g k) 0) as [E|E]; simpl; rewrite ?E; destruct (addr_eqb (fst k) a && addr_eqb (snd k) cur); lia.
Qed.
Lemma maps_cur x cur : in_sum cur (exec_inputs x) + dsum cur (x_dep x) = out_sum cur (deposit_outputs x) + total_spent (x_world x) cur.
Proof.
  unfold exec_inputs, deposit_outputs. cbv zeta.
  rewrite (in_sum_flat cur (fun k => total k (w_spend (x_world x)) - N.min (total k (x_dep x)) (total k (w_spend (x_world x))))).
  rewrite (out_sum_flat cur (fun k => total k (x_dep x) - N.min (total k (x_dep x)) (total k (w_spend (x_world x))))).
  pose proof (left_s (w_spend (x_world x)) (x_dep x) (fun k => addr_eqb (snd k) cur)) as A.
  pose proof (left_d (w_spend (x_world x)) (x_dep x) (fun k => addr_eqb (snd k) cur)) as B.
  unfold dsum, total_spent. lia.
Qed.
Lemma total_pred k l : total k l = fold_right (fun e n => (if bal_eqb (fst e) k then snd e else 0) + n) 0 l.
Proof. reflexivity. Qed.
Lemma maps_from x a cur : in_from a cur (exec_inputs x) + total (a, cur) (x_dep x) = out_to a cur (deposit_outputs x) + spent (x_world x) a cur.
Proof.
  unfold exec_inputs, deposit_outputs. cbv zeta.
  rewrite (in_from_flat a cur (fun k => total k (w_spend (x_world x)) - N.min (total k (x_dep x)) (total k (w_spend (x_world x))))).
  rewrite (out_to_flat a cur (fun k => total k (x_dep x) - N.min (total k (x_dep x)) (total k (w_spend (x_world x))))).
  pose proof (left_s (w_spend (x_world x)) (x_dep x) (fun k => bal_eqb k (a, cur))) as A.
  pose proof (left_d (w_spend (x_world x)) (x_dep x) (fun k => bal_eqb k (a, cur))) as B.
  unfold spent. rewrite total_pred. lia.
Qed.
(** the left-over amounts *)
Lemma ksum_pick (l : list (addr * N)) cur : NoDup (map fst l) ->
  ksum (fun e => if addr_eqb (fst e) cur then snd e else 0) l = mget addr_eqb cur l.
Proof.
  unfold mget. induction l as [|(k, v) l IH]; simpl; auto. intros ND. inversion ND as [|? ? NI ND']; subst. rewrite IH by auto.
  destruct (addr_eqb_spec k cur) as [->|NE].
  - rewrite addr_eqb_refl. rewrite lfind_out; [lia|apply addr_eqb_spec|auto].
  - destruct (addr_eqb_spec cur k); [congruence|]. lia.
Qed.
Lemma implicit_sum t x imp cur : implicit_deposit t x = Some imp -> out_sum cur imp = mget addr_eqb cur (x_amounts x).
Proof.
  unfold implicit_deposit. intros H.
  assert (imp = map (fun e => mk_txout (t_id t) (fst e) (snd e) None) (filter (fun e => negb (snd e =? 0)) (items bytescmp (x_amounts x)))) as ->.
  { destruct (t_deploy t); [|destruct (filter _ _); [|discriminate]]; now injection H. }
  clear H. replace (mget addr_eqb cur (x_amounts x)) with (mget addr_eqb cur (items bytescmp (x_amounts x))).
  2:{ unfold mget. now rewrite items_find by (try apply bytescmp_total; apply addr_eqb_spec). }
  rewrite <- ksum_pick by (apply items_nodup; apply bytescmp_total).
  induction (items bytescmp (x_amounts x)) as [|(k, v) l IH]; simpl; auto.
  destruct (N.eqb_spec v 0) as [->|NE]; simpl; rewrite IH; auto. destruct (addr_eqb k cur); lia.
Qed.

(** ** Steps of the execution *)
Definition tb {A} (P : A -> tst -> Prop) (F : tst -> Prop) (r : tres A) : Prop :=
  match r with TOk a x => P a x | TFail x => F x | TStatic | TUndef => True | TFuel => False end.
Lemma tb_bind {A B} (m : TM A) (f : A -> TM B) Q P F x :
  tb Q F (m x) -> (forall a x', Q a x' -> tb P F (f a x')) -> tb P F (tbind m f x).
Proof. unfold tbind, tb. destruct (m x); intros H H'; auto. apply H'. exact H. Qed.

Section TXP.
  Variable n : node.
  Variable bk : backend.
  Hypothesis bk_ok : backend_ok bk.
  Hypothesis fee_pos : 0 < n_fee_exec n.
  Variable t : tx.
  Let E := tx_env n bk t.

  Lemma depth_enough limit : limit <= n_max_cost n -> limit < e_fee_exec E * N.of_nat (depth n).
  Proof.
    intros H. unfold depth. rewrite Nat2N.inj_succ, N2Nat.id. simpl.
    pose proof (N.mul_succ_div_gt (n_max_cost n) (n_fee_exec n)). lia.
  Qed.
  Lemma exec_whole address c ex is_init s s1 : exec_before n bk t address c s = Ok tt s1 ->
    exec_call E (depth n) ex address (cl_user c) (cl_deposit c) (cl_method c) (cl_args c) is_init s = exec_rest n bk t ex c is_init s1.
  Proof.
    unfold exec_before, exec_call, exec_rest, bind. fold E. intros H.
    destruct (start_setup E address (cl_user c) s) as [? s2| | |]; try discriminate.
    destruct (add_deposit E (cl_deposit c) s2) as [? s3| | |]; try discriminate.
    change (e_hf2 E) with (n_hf2 n).
    destruct ((if n_hf2 n then ret tt else op_setup E (cl_deposit c) (cl_args c)) s3) as [[] s4| | |]; try discriminate.
    injection H as ->. reflexivity.
  Qed.

  Lemma exec_whole_fuel address c ex is_init s : exec_before n bk t address c s = Fuel ->
    exec_call E (depth n) ex address (cl_user c) (cl_deposit c) (cl_method c) (cl_args c) is_init s = Fuel.
  Proof.
    unfold exec_before, exec_call, bind. fold E. intros H.
    destruct (start_setup E address (cl_user c) s) as [? s2| | |]; try discriminate; auto.
    destruct (add_deposit E (cl_deposit c) s2) as [? s3| | |]; try discriminate; auto.
    change (e_hf2 E) with (n_hf2 n).
    destruct ((if n_hf2 n then ret tt else op_setup E (cl_deposit c) (cl_args c)) s3) as [[] s4| | |]; try discriminate; auto.
  Qed.
  (** the world after some deposits [D] *)
  Record WI (w : world) (D : list ((addr * addr) * N)) : Prop := mk_WI {
    wi_ok : ram_ok (w_ram w);
    wi_bal : forall c cur, balance_of bk w c cur + spent w c cur = balance_of bk (mk_world ram_empty [] []) c cur + total (c, cur) D;
    wi_ge : forall cur, total_spent w cur <= out_sum cur (w_outs w);
    wi_eq : forall cur, active n t cur = false -> total_spent w cur = out_sum cur (w_outs w);
    wi_locked : forall c cur, active n t c = false -> spent w c cur = 0 }.
  Lemma WI_0 : WI (mk_world ram_empty [] []) [].
  Proof.
    split.
    - split; intros; discriminate.
    - reflexivity.
    - intros cur. apply N.le_refl.
    - reflexivity.
    - reflexivity.
  Qed.
  Definition dep_list (address : addr) (c : call) : list ((addr * addr) * N) :=
    match cl_deposit c with Some (cur, v) => [((address, cur), v)] | None => [] end.
  Lemma total_app k l l' : total k (l ++ l') = total k l + total k l'.
  Proof. unfold total. induction l; simpl; auto. rewrite IHl. lia. Qed.
  Lemma deposited_total c address a cur : deposited (cl_deposit c) address a cur = total (a, cur) (dep_list address c).
  Proof.
    unfold deposited, dep_list, total. destruct (cl_deposit c) as [(u, v)|]; auto. simpl. unfold bal_eqb. simpl.
    destruct (addr_eqb address a && addr_eqb u cur); lia.
  Qed.
  (** everything but cost and world stays *)
  Definition same_rest (x x' : tst) : Prop := x_bal x' = x_bal x /\ x_amounts x' = x_amounts x /\ x_dep x' = x_dep x /\ x_cost x <= x_cost x'.
  Lemma same_rest_refl x : same_rest x x. Proof. repeat split; lia. Qed.
  Lemma runs_exec a : runs E a = executable n t a.
  Proof.
    unfold runs, contract_of, executable. cbn. destruct (t_deploy t); cbn; auto.
  Qed.
  Lemma exec_op_ok avail k address c is_init x D : contract_of E address = Some k -> WI (x_world x) D ->
    tb (fun _ x' => same_rest x x' /\ WI (x_world x') (dep_list address c ++ D)) (fun x' => same_rest x x') (exec_op n bk t avail k address c is_init x).
  Proof.
    intros CO W. unfold exec_op. destruct (k_exec k) as [ex|] eqn:KX; [|apply same_rest_refl].
    assert (AC : forall a, active n t a = false -> act E address a = false).
    { intros a. unfold active, act, may. change (e_locked E a) with (n_locked n t a). rewrite <- runs_exec.
      destruct (addr_eqb_spec a address) as [->|]; [|now rewrite orb_false_r].
      unfold runs. rewrite CO, KX. auto. }
    unfold tbind at 1. cbn [tget]. cbv zeta.
    set (limit := N.min (avail - N.min (x_cost x) avail) (n_max_cost n)).
    set (s0 := engine_new address (t_version t) limit false (x_world x)).
    eapply tb_bind with (Q := fun _ x' => x' = x).
    { destruct (cl_user c) as [u|]; [|reflexivity]. destruct (charge_contract _ u s0); try apply same_rest_refl.
      unfold tcheck. destruct (solution n t u (cl_sol c)); simpl; auto. apply same_rest_refl. }
    intros _ ? ->.
    destruct (exec_before n bk t address c s0) as [[] s1|s1|s1|] eqn:EB; cbn [tb]; auto; [|apply same_rest_refl|].
    2:{ pose proof (call_ok E bk_ok (depth n) ex address (cl_user c) (cl_deposit c) (cl_method c) (cl_args c) is_init limit (x_world x)
                  fee_pos (wi_ok _ _ W) (depth_enough limit (N.le_min_r _ _))) as OK.
        change (engine_new address (e_version E) limit false (x_world x)) with s0 in OK.
        rewrite (exec_whole_fuel address c ex is_init s0 EB) in OK. exact OK. }
    pose proof (exec_whole address c ex is_init s0 s1 EB) as EW.
    pose proof (call_ok E bk_ok (depth n) ex address (cl_user c) (cl_deposit c) (cl_method c) (cl_args c) is_init limit (x_world x)
                  fee_pos (wi_ok _ _ W) (depth_enough limit (N.le_min_r _ _))) as OK.
    change (engine_new address (e_version E) limit false (x_world x)) with s0 in OK. rewrite EW in OK.
    destruct (exec_rest n bk t ex c is_init s1) as [[] s2|s2|s2|]; cbn [tb tset set_world' set_cost x_world]; auto.
    - split; [repeat split; simpl; lia|]. destruct OK as (_ & R).
      destruct W as [W1 W2 W3 W4 W5].
      split.
      + apply (rw_ok _ _ _ _ R). apply (dep_world_ok E). exact W1.
      + intros a cur. pose proof (rw_bal _ _ _ _ R a cur) as B.
        change (spent (dep_world E (cl_deposit c) (x_world x) address) a cur) with (spent (x_world x) a cur) in B.
        change (e_backend E) with bk in B. pose proof (dep_world_balance E (cl_deposit c) (x_world x) address a cur) as B2.
        change (e_backend E) with bk in B2. rewrite B2 in B.
        rewrite total_app, <- deposited_total. specialize (W2 a cur). lia.
      + intros cur. pose proof (rw_cons_ge _ _ _ _ R cur) as B.
        change (total_spent (dep_world E (cl_deposit c) (x_world x) address) cur) with (total_spent (x_world x) cur) in B.
        change (w_outs (dep_world E (cl_deposit c) (x_world x) address)) with (w_outs (x_world x)) in B. specialize (W3 cur). lia.
      + intros cur L. pose proof (rw_cons _ _ _ _ R cur (AC cur L)) as B.
        change (total_spent (dep_world E (cl_deposit c) (x_world x) address) cur) with (total_spent (x_world x) cur) in B.
        change (w_outs (dep_world E (cl_deposit c) (x_world x) address)) with (w_outs (x_world x)) in B. specialize (W4 cur L). lia.
      + intros a cur L. rewrite (rw_unspent _ _ _ _ R a cur (AC a L)). apply (W5 a cur L).
    - repeat split; simpl; lia.
  Qed.
  Lemma read_cost_ok limit a x : tb (fun _ x' => same_rest x x' /\ x_world x' = x_world x) (fun x' => same_rest x x') (read_cost n limit a x).
  Proof.
    unfold read_cost, tbind, tget. destruct (limit <? _); simpl; [apply same_rest_refl|]. repeat split; simpl; lia.
  Qed.

  (** [b0]: the balances at the start *)
  Variable b0 : balances.
  Definition lower (b : balances) : Prop := forall a cur, match b0 a cur, b a cur with
    | Some v, Some v' => v' <= v | None, None => True | _, _ => False end.
  Definition taken (b : balances) (ins : list txin) : Prop := forall a cur, bal0 b a cur + in_from a cur ins = bal0 b0 a cur.
  Variable c0 : N.
  Definition FI (x : tst) : Prop := c0 <= x_cost x /\ lower (x_bal x).
  Definition solved (i : txin) : Prop := ti_sol i < t_nsol t /\
    if ti_exec i then (exists k, n_contract n (ti_address i) = Some k /\ k_exec k = None) /\ t_sol t (ti_address i) (ti_sol i) = Accepted
    else t_key t (ti_address i) (ti_sol i) = Accepted.
  Record OI (x : tst) (ins : list txin) (outs : list txout) : Prop := mk_OI {
    oi_fail : FI x;
    oi_taken : taken (x_bal x) ins;
    oi_solved : Forall solved ins;
    oi_sum : forall cur, mget addr_eqb cur (x_amounts x) + out_sum cur outs + dsum cur (x_dep x) <= in_sum cur ins;
    oi_eq : forall cur, in_sum cur ins < 2 ^ 128 -> mget addr_eqb cur (x_amounts x) + out_sum cur outs + dsum cur (x_dep x) = in_sum cur ins;
    oi_wrap : forall cur, mget addr_eqb cur (x_amounts x) < 2 ^ 128;
    oi_nonzero : Forall (fun o => to_amount o <> 0) outs;
    oi_world : WI (x_world x) (x_dep x) }.
  Lemma mget_cons k k' (v : N) l : mget addr_eqb k ((k', v) :: l) = if addr_eqb k k' then v else mget addr_eqb k l.
  Proof. unfold mget. simpl. destruct (addr_eqb k k'); auto. Qed.
  Lemma input_ok limit i x ins : OI x ins [] -> x_dep x = [] ->
    tb (fun _ x' => OI x' (ins ++ [i]) [] /\ x_dep x' = []) FI (do_input n t limit i x).
  Proof.
    intros [F T SO S Q W NZ WD] ED. unfold do_input. unfold tbind at 1. cbn [tget].
    destruct (x_bal x (ti_address i) (ti_currency i)) as [b|] eqn:B; [|exact F].
    destruct (N.ltb_spec b (ti_amount i)) as [L|L]; [exact F|].
    destruct (N.leb_spec (t_nsol t) (ti_sol i)) as [L2|L2]; [exact I|].
    eapply tb_bind with (Q := fun _ x' => same_rest x x' /\ x_world x' = x_world x /\ solved i).
    { assert (forall x', same_rest x x' -> FI x') as FF by (intros x' (E1 & _ & _ & E4); destruct F; split; [lia|now rewrite E1]).
      destruct (ti_exec i) eqn:EX.
      - eapply tb_bind; [eapply (fun H => H); pose proof (read_cost_ok limit (ti_address i) x) as R|].
        { revert R. unfold tb. destruct (read_cost n limit (ti_address i) x) as [u x'|x'| | |]; intros R; [exact R|apply FF; exact R|exact I|exact I|exact R]. }
        simpl. intros _ x' (R1 & R2). destruct (n_contract n (ti_address i)) as [k|] eqn:NC; [|apply FF; exact R1].
        unfold tcheck, solution. rewrite NC. destruct (k_exec k) as [ex|] eqn:KX; [apply FF; exact R1|].
        destruct (t_sol t (ti_address i) (ti_sol i)) eqn:CH; simpl; auto.
        split; [exact R1|]. split; [exact R2|]. split; [exact L2|]. rewrite EX. split; [eauto|auto].
      - unfold tcheck. destruct (t_key t (ti_address i) (ti_sol i)) eqn:CH; simpl; auto.
        split; [apply same_rest_refl|]. split; auto. split; auto. rewrite EX. exact CH. }
    intros _ x' ((E1 & E2 & E3 & E4) & EW & SI). cbn. destruct F as (F1 & F2).
    split; [|simpl; congruence]. rewrite E1, E2, E3, EW. split; cbn [x_cost x_bal x_amounts x_dep x_world].
    - split; [cbn [x_cost]; lia|]. cbn [x_bal]. intros a cur. specialize (F2 a cur). unfold set_balance.
      destruct (addr_eqb_spec a (ti_address i)) as [->|]; [|exact F2]. destruct (addr_eqb_spec cur (ti_currency i)) as [->|]; [|exact F2].
      cbn. rewrite B in F2. destruct (b0 (ti_address i) (ti_currency i)); [lia|contradiction].
    - intros a cur. specialize (T a cur). rewrite in_from_app. cbn [in_from fold_right]. 
      unfold bal0 at 1. unfold set_balance. unfold bal0 at 1 in T.
      destruct (addr_eqb_spec a (ti_address i)) as [->|NA].
      + rewrite ?addr_eqb_refl. cbn [andb]. destruct (addr_eqb_spec cur (ti_currency i)) as [->|NC].
        * rewrite ?addr_eqb_refl. cbn [andb]. rewrite B in T. lia.
        * destruct (addr_eqb_spec (ti_currency i) cur); [congruence|]. cbn [andb]. lia.
      + destruct (addr_eqb_spec (ti_address i) a); [congruence|]. cbn [andb]. lia.
    - apply Forall_app. split; auto.
    - intros cur. specialize (S cur). rewrite mget_cons, in_sum_app. cbn [in_sum fold_right out_sum] in *. rewrite ED in *. cbn [dsum fold_right] in *.
      destruct (addr_eqb_spec cur (ti_currency i)) as [->|NE].
      + rewrite ?addr_eqb_refl. pose proof (N.mod_le (mget addr_eqb (ti_currency i) (x_amounts x) + ti_amount i) (2 ^ 128) ltac:(discriminate)) as ML.
        set (m := _ mod _) in *. clearbody m. lia.
      + destruct (addr_eqb_spec (ti_currency i) cur); [congruence|]. lia.
    - intros cur. specialize (S cur). specialize (Q cur). rewrite mget_cons, in_sum_app. cbn [in_sum fold_right out_sum] in *. rewrite ED in *. cbn [dsum fold_right] in *.
      destruct (addr_eqb_spec cur (ti_currency i)) as [->|NE].
      + rewrite ?addr_eqb_refl. intros L3. rewrite N.mod_small by lia. lia.
      + destruct (addr_eqb_spec (ti_currency i) cur); [congruence|]. lia.
    - intros cur. rewrite mget_cons. destruct (addr_eqb cur (ti_currency i)); [apply N.mod_lt; discriminate|apply W].
    - constructor.
    - exact WD.
  Qed.
  Lemma inputs_ok limit l : forall x ins, OI x ins [] -> x_dep x = [] ->
    tb (fun _ x' => OI x' (ins ++ l) [] /\ x_dep x' = []) FI (teach (do_input n t limit) l x).
  Proof.
    induction l as [|i l IH]; intros x ins O D; simpl; [rewrite app_nil_r; auto|].
    eapply tb_bind; [apply input_ok; eauto|]. intros _ x' (O' & D'). specialize (IH x' (ins ++ [i]) O' D'). now rewrite <- app_assoc in IH.
  Qed.
  Lemma output_ok o x ins outs : OI x ins outs -> tb (fun _ x' => OI x' ins (outs ++ [o])) FI (do_output o x).
  Proof.
    intros O. destruct O as [F T SO S Q W NZ WD]. unfold do_output. unfold tbind at 1. cbn [tget].
    destruct (N.eqb_spec (to_amount o) 0) as [Z|Z]; [exact F|].
    destruct (N.ltb_spec (mget addr_eqb (to_currency o) (x_amounts x)) (to_amount o)) as [L|L]; [exact F|].
    cbn. split; cbn [x_cost x_bal x_amounts x_dep x_world]; auto.
    - intros cur. specialize (S cur). rewrite mget_cons, out_sum_app. cbn [out_sum fold_right] in *.
      destruct (addr_eqb_spec cur (to_currency o)) as [->|NE]; [rewrite ?addr_eqb_refl; lia|].
      destruct (addr_eqb_spec (to_currency o) cur); [congruence|]. lia.
    - intros cur. specialize (Q cur). rewrite mget_cons, out_sum_app. cbn [out_sum fold_right] in *.
      destruct (addr_eqb_spec cur (to_currency o)) as [->|NE]; [rewrite ?addr_eqb_refl; lia|].
      destruct (addr_eqb_spec (to_currency o) cur); [congruence|]. lia.
    - intros cur. rewrite mget_cons. pose proof (W (to_currency o)). destruct (addr_eqb cur (to_currency o)); [lia|apply W].
    - apply Forall_app. auto.
  Qed.
  Lemma outputs_ok ins l : forall x outs, OI x ins outs -> tb (fun _ x' => OI x' ins (outs ++ l)) FI (teach do_output l x).
  Proof.
    induction l as [|o l IH]; intros x outs O; simpl; [rewrite app_nil_r; auto|].
    eapply tb_bind; [apply output_ok; eauto|]. intros u' x' O'. cbv beta in O'. specialize (IH x' (outs ++ [o]) O'). now rewrite <- app_assoc in IH.
  Qed.
  Lemma FI_same x x' : FI x -> same_rest x x' -> FI x'.
  Proof. intros F (E1 & _ & _ & E4). destruct F; split; [lia|now rewrite E1]. Qed.
  Lemma tb_weaken {A} (P P' : A -> tst -> Prop) (F F' : tst -> Prop) r : tb P F r -> (forall a x, P a x -> P' a x) -> (forall x, F x -> F' x) -> tb P' F' r.
  Proof. unfold tb. destruct r; auto. Qed.
  Lemma OI_same x x' ins outs : OI x ins outs -> same_rest x x' -> WI (x_world x') (x_dep x') -> OI x' ins outs.
  Proof.
    intros [O1 O2 O3 O4 O5 O6 O7 O8] R W. pose proof (FI_same _ _ O1 R) as F. destruct R as (E1 & E2 & E3 & E4).
    split; auto; rewrite ?E1, ?E2, ?E3; auto.
  Qed.
  Lemma deploy_ok avail d x ins outs : t_deploy t = Some d -> OI x ins outs -> tb (fun _ x' => OI x' ins outs) FI (do_deploy n bk t avail d x).
  Proof.
    intros TD O. unfold do_deploy. destruct (negb (dp_valid d)); [exact (oi_fail _ _ _ O)|]. destruct (k_exec (dp_contract d)) as [ex|]; [|exact O].
    destruct (forallb _ _); [|exact (oi_fail _ _ _ O)].
    eapply tb_weaken; [apply exec_op_ok; [|exact (oi_world _ _ _ O)]| |].
    { unfold contract_of. cbn. rewrite addr_eqb_refl, TD. reflexivity. }
    - simpl. intros _ x' (R & W). eapply OI_same; eauto. destruct R as (_ & _ & -> & _). exact W.
    - intros x' R. eapply FI_same; eauto. exact (oi_fail _ _ _ O).
  Qed.
  Lemma op_ok avail limit o x ins outs : OI x ins outs -> tb (fun _ x' => OI x' ins outs) FI (do_op n bk t avail limit o x).
  Proof.
    intros O. unfold do_op. destruct (negb (op_valid o)); [exact (oi_fail _ _ _ O)|]. cbv zeta.
    set (address := if addr_eqb (op_address o) zero_addr then t_id t else op_address o).
    eapply tb_bind with (Q := fun k x' => OI x' ins outs /\ forall k', k = Some k' -> contract_of E address = Some k').
    { destruct (addr_eqb_spec address (t_id t)) as [EA|NA].
      { split; [exact O|]. intros k' EK. unfold contract_of. cbn. rewrite EA, addr_eqb_refl. destruct (t_deploy t); cbn in *; [exact EK|discriminate]. }
      eapply tb_bind.
      - eapply tb_weaken; [apply read_cost_ok| |].
        + intros a x' H. exact H.
        + intros x' H. eapply FI_same; eauto. exact (oi_fail _ _ _ O).
      - intros _ x' (R & EW). simpl. split.
        + eapply OI_same; eauto. rewrite EW. destruct R as (_ & _ & -> & _). exact (oi_world _ _ _ O).
        + intros k' EK. unfold contract_of. cbn. destruct (addr_eqb_spec address (t_id t)); [contradiction|]. exact EK. }
    clear x O. intros k x (O & CO). destruct k as [k|]; [|exact (oi_fail _ _ _ O)]. specialize (CO k eq_refl).
    destruct (op_call o) as [c|]; [|exact O].
    destruct (cl_deposit c) as [(cur, amount)|] eqn:DC.
    - unfold tbind at 1. unfold tbind at 1. cbn [tget].
      destruct (N.ltb_spec (mget addr_eqb cur (x_amounts x)) amount) as [L|L]; [exact (oi_fail _ _ _ O)|]. cbn [tset].
      set (x1 := mk_tst _ _ _ _ _).
      eapply tb_weaken; [apply exec_op_ok with (D := x_dep x); [exact CO|exact (oi_world _ _ _ O)]| |].
      + simpl. intros _ x' (R & W). unfold dep_list in W. rewrite DC in W. simpl in W.
        assert (FI x1) as F1 by exact (oi_fail _ _ _ O). pose proof (FI_same _ _ F1 R) as F'.
        destruct R as (E1 & E2 & E3 & E4). destruct O as [F T SO S Q WR NZ WD].
        split; auto; rewrite ?E1, ?E2, ?E3; auto; unfold x1; cbn [x_cost x_bal x_amounts x_dep x_world]; auto.
        * intros cu. specialize (S cu). rewrite mget_cons. unfold dsum in *. cbn [fold_right fst snd].
          destruct (addr_eqb_spec cu cur) as [->|NE]; [rewrite ?addr_eqb_refl; lia|]. destruct (addr_eqb_spec cur cu); [congruence|]. lia.
        * intros cu. specialize (Q cu). rewrite mget_cons. unfold dsum in *. cbn [fold_right fst snd].
          destruct (addr_eqb_spec cu cur) as [->|NE]; [rewrite ?addr_eqb_refl; lia|]. destruct (addr_eqb_spec cur cu); [congruence|]. lia.
        * intros cu. rewrite mget_cons. pose proof (WR cur). destruct (addr_eqb cu cur); [lia|apply WR].
      + intros x' R. apply (FI_same x1); auto. exact (oi_fail _ _ _ O).
    - unfold tbind, tret. eapply tb_weaken; [apply exec_op_ok with (D := x_dep x); [exact CO|exact (oi_world _ _ _ O)]| |].
      + simpl. intros _ x' (R & W). unfold dep_list in W. rewrite DC in W. simpl in W. eapply OI_same; eauto.
        destruct R as (_ & _ & -> & _). exact W.
      + intros x' R. apply (FI_same x); auto. exact (oi_fail _ _ _ O).
  Qed.
  Lemma ops_ok avail limit ins outs l : forall x, OI x ins outs -> tb (fun _ x' => OI x' ins outs) FI (teach (do_op n bk t avail limit) l x).
  Proof.
    induction l as [|o l IH]; intros x O; simpl; auto. eapply tb_bind; [apply op_ok; eauto|]. intros u' x' O'. cbv beta in O'. apply IH; auto.
  Qed.
  (** the whole try block *)
  Record DONE (x : tst) (io : list txin * list txout) : Prop := mk_DONE {
    dn_fail : FI x;
    dn_taken : taken (x_bal x) (t_inputs t);
    dn_solved : Forall solved (t_inputs t);
    dn_le : forall cur, active n t cur = false -> out_sum cur (t_outputs t ++ snd io) <= in_sum cur (t_inputs t ++ fst io);
    dn_ge : forall cur, in_sum cur (t_inputs t) < 2 ^ 128 -> in_sum cur (t_inputs t ++ fst io) <= out_sum cur (t_outputs t ++ snd io);
    dn_bal : forall c cur, balance_of bk (x_world x) c cur + in_from c cur (fst io)
                           <= balance_of bk (mk_world ram_empty [] []) c cur + out_to c cur (snd io);
    dn_locked : forall c cur, active n t c = false -> in_from c cur (fst io) = 0;
    dn_ram : ram_ok (w_ram (x_world x));
    dn_cost : c0 + match t_result t with Some _ => 0 | None => io_cost n (fst io) (snd io) end <= x_cost x <= n_max_cost n }.
  Lemma try_ok avail limit x : OI x [] [] -> x_dep x = [] ->
    tb (fun io x' => DONE x' io) FI (try_block n bk t avail limit x).
  Proof.
    intros O D. unfold try_block. destruct (t_expires t <? n_height n); [exact (oi_fail _ _ _ O)|].
    eapply tb_bind; [apply (inputs_ok limit (t_inputs t) x []); auto|]. simpl. intros _ x1 (O1 & _).
    eapply tb_bind; [apply (outputs_ok (t_inputs t) (t_outputs t) x1 []); auto|]. simpl. intros u2 x2 O2.
    eapply tb_bind with (Q := fun _ x' => OI x' (t_inputs t) (t_outputs t)).
    { destruct (t_deploy t) as [d|] eqn:TD; [apply deploy_ok; auto|exact O2]. }
    intros u3 x3 O3. eapply tb_bind; [apply ops_ok; eauto|]. intros u4 x4 O4. cbv beta in O4.
    unfold tbind at 1. cbn [tget]. cbv zeta. destruct (implicit_deposit t x4) as [imp|] eqn:IM; [|exact (oi_fail _ _ _ O4)].
    set (cost := x_cost x4 + _). unfold tbind. cbn [tset]. destruct (N.ltb_spec (n_max_cost n) cost) as [|CM]; [exact I|]. match goal with |- context [if ?b then _ else _] => destruct b; [exact I|] end.
    cbn [tb tret]. destruct O4 as [F T SO S Q WR NZ WD]. destruct WD as [W1 W2 W3 W4 W5].
    assert (F' : FI (set_cost cost x4)). { destruct F; split; auto. simpl. unfold cost. lia. }
    split; cbn [fst snd]; auto.
    - intros cur L. rewrite in_sum_app, !out_sum_app, (implicit_sum _ _ _ cur IM). specialize (S cur). specialize (W4 cur L).
      pose proof (maps_cur x4 cur). lia.
    - intros cur L. rewrite in_sum_app, !out_sum_app, (implicit_sum _ _ _ cur IM). specialize (Q cur L). specialize (W3 cur).
      pose proof (maps_cur x4 cur). lia.
    - intros c cur. rewrite !out_to_app. specialize (W2 c cur). pose proof (maps_from x4 c cur). cbn [set_cost x_world]. lia.
    - intros c cur L. specialize (W5 c cur L). unfold exec_inputs. cbv zeta.
      rewrite (in_from_flat c cur (fun k => total k (w_spend (x_world x4)) - N.min (total k (x_dep x4)) (total k (w_spend (x_world x4))))).
      apply ksum_zero. intros k _. destruct (bal_eqb_spec k (c, cur)) as [->|]; auto. change (total (c, cur) (w_spend (x_world x4)) = 0) in W5. rewrite W5. reflexivity.
    - cbn [set_cost x_cost]. split; [|exact CM]. unfold cost. destruct F as (F1 & _). lia.
  Qed.
End TXP.

(** ** The result *)
Lemma list_eqb_sum {A} (eqb : A -> A -> bool) (f : A -> N) : (forall a b, eqb a b = true -> f a = f b) -> forall l l', list_eqb eqb l l' = true ->
  fold_right (fun a s => f a + s) 0 l = fold_right (fun a s => f a + s) 0 l'.
Proof.
  intros H. induction l as [|a l IH]; intros [|b l']; simpl; try discriminate; auto. intros E. apply andb_prop in E. destruct E as (E1 & E2).
  rewrite (H _ _ E1), (IH _ E2). reflexivity.
Qed.
Lemma addr_eqb_true a b : addr_eqb a b = true -> a = b.
Proof. destruct (addr_eqb_spec a b); auto. discriminate. Qed.
Lemma txin_eqb_ok a b : txin_eqb a b = true -> ti_currency a = ti_currency b /\ ti_address a = ti_address b /\ ti_amount a = ti_amount b.
Proof.
  unfold txin_eqb. intros H. repeat (apply andb_prop in H; destruct H as (H & ?)). apply addr_eqb_true in H.
  repeat split; auto; [now apply addr_eqb_true|now apply N.eqb_eq].
Qed.
Lemma txout_eqb_ok a b : txout_eqb a b = true -> to_currency a = to_currency b /\ to_address a = to_address b /\ to_amount a = to_amount b.
Proof.
  unfold txout_eqb. intros H. repeat (apply andb_prop in H; destruct H as (H & ?)). apply addr_eqb_true in H.
  repeat split; auto; [now apply addr_eqb_true|now apply N.eqb_eq].
Qed.
Definition same_ins (l l' : list txin) : Prop := (forall cur, in_sum cur l = in_sum cur l') /\ forall a cur, in_from a cur l = in_from a cur l'.
Definition same_outs (l l' : list txout) : Prop := (forall cur, out_sum cur l = out_sum cur l') /\ forall a cur, out_to a cur l = out_to a cur l'.
Lemma ins_eqb l l' : list_eqb txin_eqb l l' = true -> same_ins l l'.
Proof.
  intros H. split; intros; [eapply (list_eqb_sum txin_eqb (fun i => if addr_eqb (ti_currency i) cur then ti_amount i else 0))|
    eapply (list_eqb_sum txin_eqb (fun i => if addr_eqb (ti_address i) a && addr_eqb (ti_currency i) cur then ti_amount i else 0))]; eauto;
  intros i j E; apply txin_eqb_ok in E; destruct E as (E1 & E2 & E3); rewrite ?E1, ?E2, ?E3; auto.
Qed.
Lemma outs_eqb l l' : list_eqb txout_eqb l l' = true -> same_outs l l'.
Proof.
  intros H. split; intros; [eapply (list_eqb_sum txout_eqb (fun i => if addr_eqb (to_currency i) cur then to_amount i else 0))|
    eapply (list_eqb_sum txout_eqb (fun i => if addr_eqb (to_address i) a && addr_eqb (to_currency i) cur then to_amount i else 0))]; eauto;
  intros i j E; apply txout_eqb_ok in E; destruct E as (E1 & E2 & E3); rewrite ?E1, ?E2, ?E3; auto.
Qed.

Section RES.
  Variable n : node.
  Variable bk : backend.
  Hypothesis bk_ok : backend_ok bk.
  Hypothesis fee_pos : 0 < n_fee_exec n.
  Variable t : tx.
  (** everything that is known about an executed transaction *)
  Record EXEC (bal : balances) (r : result) (w : option world) : Prop := mk_EXEC {
    ex_fee : exists sender static_fee, t_sender t = Some sender /\ cost_to_fee (static_cost n t) (t_ratio t) = Some static_fee /\
      static_fee <= rs_fee r <= t_max_fee t /\ rs_fee r <= bal0 bal sender zero_addr /\ t_key t sender 0 = Accepted /\ 0 < t_nsol t;
    ex_fail : rs_fail r = true <-> w = None;
    ex_none : rs_fail r = true -> rs_inputs r = [] /\ rs_outputs r = [];
    ex_bal : rs_fail r = false -> forall a cur,
      in_from a cur (match t_sender t with Some s => [mk_txin s zero_addr (rs_fee r) None false 0] | None => [] end ++ t_inputs t) <= bal0 bal a cur;
    ex_solved : rs_fail r = false -> Forall (solved n t) (t_inputs t);
    ex_le : rs_fail r = false -> forall cur, active n t cur = false -> out_sum cur (all_outputs t r) <= in_sum cur (all_inputs t r);
    ex_ge : rs_fail r = false -> forall cur, in_sum cur (t_inputs t) < 2 ^ 128 -> in_sum cur (all_inputs t r) <= out_sum cur (all_outputs t r);
    ex_world : forall w', w = Some w' -> ram_ok (w_ram w') /\ forall c cur,
      balance_of bk w' c cur + in_from c cur (rs_inputs r) <= balance_of bk (mk_world ram_empty [] []) c cur + out_to c cur (rs_outputs r);
    ex_locked : forall c cur, active n t c = false -> in_from c cur (rs_inputs r) = 0;
    ex_cost : static_cost n (update r t) <= rs_cost r /\ (rs_fail r = false -> rs_cost r <= n_max_cost n) }.
  Lemma fee_mono c c' ratio f f' : c <= c' -> cost_to_fee c ratio = Some f -> cost_to_fee c' ratio = Some f' -> f <= f'.
  Proof.
    unfold cost_to_fee. intros L. cbv zeta. destruct (2 ^ 64 <=? c * ratio / 1024); [discriminate|]. destruct (2 ^ 64 <=? c' * ratio / 1024); [discriminate|].
    intros [= <-] [= <-]. apply N.div_le_mono; [discriminate|]. now apply N.mul_le_mono_r.
  Qed.
  Lemma settle_ok bal sender b static_fee failed io x r w :
    t_sender t = Some sender -> t_nsol t <> 0 -> t_key t sender 0 = Accepted -> bal sender zero_addr = Some b -> static_fee <= b ->
    cost_to_fee (static_cost n t) (t_ratio t) = Some static_fee -> static_fee <= t_max_fee t ->
    FI (set_balance bal sender zero_addr (b - static_fee)) (static_cost n t) x ->
    (failed = false -> DONE n bk t (set_balance bal sender zero_addr (b - static_fee)) (static_cost n t) x io) ->
    settle_fee t sender static_fee failed io x = VDone r w -> EXEC bal r w.
  Proof.
    intros TS NS TK B L CF L2 F D. unfold settle_fee. destruct (cost_to_fee (x_cost x) (t_ratio t)) as [tot|] eqn:CT; [|discriminate].
    cbv zeta. set (fee := N.min tot (t_max_fee t)). destruct (x_bal x sender zero_addr) as [b'|] eqn:B'; [|discriminate].
    destruct (N.ltb_spec b' (fee - static_fee)) as [|L3]; [discriminate|].
    set (f := failed || (t_max_fee t <? tot)). pose proof (fee_mono _ _ _ _ _ (proj1 F) CF CT) as FM.
    assert (FE : same_ins (if f then [] else fst io) (rs_inputs r) -> same_outs (if f then [] else snd io) (rs_outputs r) ->
              (f = true -> rs_inputs r = [] /\ rs_outputs r = []) -> rs_fail r = f -> rs_fee r = fee -> w = (if f then None else Some (x_world x)) ->
              rs_cost r = x_cost x -> static_cost n (update r t) <= x_cost x -> EXEC bal r w).
    { intros SI SO H1 H3 H4 H5 H6 H7.
      assert (HB : b' <= b - static_fee /\ fee <= b).
      { destruct F as (_ & F). specialize (F sender zero_addr). unfold set_balance in F. rewrite !addr_eqb_refl in F. cbn [andb] in F. rewrite B' in F. lia. }
      split.
      - exists sender, static_fee. rewrite H4. unfold bal0. rewrite B. repeat split; auto; unfold fee; lia.
      - rewrite H3, H5. destruct f; split; congruence.
      - intros RF. rewrite H3 in RF. auto.
      - intros RF a cur. rewrite H3 in RF. assert (failed = false) as FF by (unfold f in RF; apply orb_false_elim in RF; tauto).
        pose proof (dn_taken _ _ _ _ _ _ _ (D FF) a cur) as T. rewrite TS, H4. cbn [app in_from fold_right ti_address ti_currency ti_amount].
        change (fold_right _ 0 (t_inputs t)) with (in_from a cur (t_inputs t)).
        unfold bal0 in T |- * . unfold set_balance in T at 1. destruct (addr_eqb_spec sender a) as [<-|NA].
        + rewrite ?addr_eqb_refl in *. destruct (addr_eqb_spec zero_addr cur) as [<-|NC].
          * rewrite ?addr_eqb_refl in T. cbn [andb] in *. rewrite B, B' in *. lia.
          * destruct (addr_eqb_spec cur zero_addr) as [->|]; [congruence|]. cbn [andb] in *. lia.
        + destruct (addr_eqb_spec a sender) as [->|]; [congruence|]. cbn [andb] in *. lia.
      - intros RF. rewrite H3 in RF. assert (failed = false) as FF by (unfold f in RF; apply orb_false_elim in RF; tauto).
        exact (dn_solved _ _ _ _ _ _ _ (D FF)).
      - intros RF cur LK. rewrite H3 in RF. assert (failed = false) as FF by (unfold f in RF; apply orb_false_elim in RF; tauto).
        pose proof (dn_le _ _ _ _ _ _ _ (D FF) cur LK) as T. unfold all_inputs, all_outputs. rewrite out_sum_app, in_sum_app in *.
        rewrite RF in SI, SO. rewrite <- (proj1 SI), <- (proj1 SO). exact T.
      - intros RF cur LK. rewrite H3 in RF. assert (failed = false) as FF by (unfold f in RF; apply orb_false_elim in RF; tauto).
        pose proof (dn_ge _ _ _ _ _ _ _ (D FF) cur LK) as T. unfold all_inputs, all_outputs. rewrite out_sum_app, in_sum_app in *.
        rewrite RF in SI, SO. rewrite <- (proj1 SI), <- (proj1 SO). exact T.
      - intros w' EW. rewrite H5 in EW. destruct f eqn:Ef; [discriminate|]. assert (failed = false) as FF by (unfold f in Ef; apply orb_false_elim in Ef; tauto).
        injection EW as <-. split; [exact (dn_ram _ _ _ _ _ _ _ (D FF))|]. intros c cur. rewrite <- (proj2 SI), <- (proj2 SO).
        exact (dn_bal _ _ _ _ _ _ _ (D FF) c cur).
      - intros c cur LK. rewrite <- (proj2 SI). destruct f eqn:Ef; [reflexivity|]. assert (failed = false) as FF by (unfold f in Ef; apply orb_false_elim in Ef; tauto).
        exact (dn_locked _ _ _ _ _ _ _ (D FF) c cur LK).
      - rewrite H6. split; auto. intros RF. rewrite H3 in RF. assert (failed = false) as FF by (unfold f in RF; apply orb_false_elim in RF; tauto).
        apply (dn_cost _ _ _ _ _ _ _ (D FF)). }
    assert (SR : forall l, same_ins l l) by (split; auto). assert (SRo : forall l, same_outs l l) by (split; auto).
    destruct (t_result t) as [r'|] eqn:TR.
    - assert (SC : static_cost n (update r' t) <= x_cost x).
      { apply N.le_trans with (2 := proj1 F). unfold static_cost. cbn [update t_base t_result]. rewrite TR. lia. }
      destruct (Bool.eqb (rs_fail r') f) eqn:E1; [|discriminate]. destruct (N.eqb_spec (rs_cost r') (x_cost x)) as [E2|]; [|discriminate].
      destruct (N.eqb_spec (rs_fee r') fee) as [E3|]; [|discriminate]. cbn [negb]. apply Bool.eqb_prop in E1.
      destruct f eqn:Ef.
      + destruct (rs_inputs r') eqn:RI; [|discriminate]. destruct (rs_outputs r') eqn:RO; [|discriminate].
        intros [= <- <-]. rewrite RI, RO in FE. apply FE; auto.
      + destruct (list_eqb txin_eqb (fst io) (rs_inputs r')) eqn:LI; [|discriminate]. destruct (list_eqb txout_eqb (snd io) (rs_outputs r')) eqn:LO; [|discriminate].
        cbn [andb]. intros [= <- <-]. apply FE; auto using ins_eqb, outs_eqb. discriminate.
    - intros [= <- <-]. cbn [rs_fail rs_fee rs_inputs rs_outputs rs_cost] in FE. apply FE; auto; [intros ->; auto|].
      unfold static_cost at 1. cbn [update t_base t_result rs_inputs rs_outputs].
      assert (SC : static_cost n t = t_base t) by (unfold static_cost; rewrite TR; lia).
      destruct f eqn:Ef.
      + change (io_cost n [] []) with 0. destruct F as (F1 & _). lia.
      + assert (failed = false) as FF by (unfold f in Ef; apply orb_false_elim in Ef; tauto).
        pose proof (dn_cost _ _ _ _ _ _ _ (D FF)) as (DC & _). rewrite TR in DC. lia.
  Qed.
  Theorem validate_ok bal r w : validate n bk t bal = VDone r w -> EXEC bal r w.
  Proof.
    unfold validate. destruct (negb _); [discriminate|]. destruct (n_max_cost n <? static_cost n t); [discriminate|].
    destruct (N.leb_spec (2 ^ 32) (t_max_fee t)); [discriminate|]. destruct (n_exists n (t_id t)); [discriminate|].
    destruct (fee_to_cost (t_max_fee t) (t_ratio t)) as [avail|]; [|discriminate].
    destruct (cost_to_fee (static_cost n t) (t_ratio t)) as [static_fee|] eqn:CF; [|discriminate].
    destruct (N.ltb_spec (t_max_fee t) static_fee); [discriminate|]. destruct (t_sender t) as [sender|] eqn:TS; [|discriminate].
    destruct (N.eqb_spec (t_nsol t) 0); [discriminate|]. destruct (t_key t sender 0) eqn:TK; try discriminate.
    destruct (bal sender zero_addr) as [b|] eqn:B; [|discriminate]. destruct (N.ltb_spec b static_fee); [discriminate|]. cbv zeta.
    set (x0 := mk_tst _ _ _ _ _). set (b1 := set_balance bal sender zero_addr (b - static_fee)) in *.
    assert (O : OI n bk t b1 (static_cost n t) x0 [] []).
    { split.
      - split; cbn; [lia|]. intros a cur. destruct (b1 a cur); auto. lia.
      - intros a cur. cbn. lia.
      - constructor.
      - intros cur. apply N.le_refl.
      - intros cur _. reflexivity.
      - intros cur. reflexivity.
      - constructor.
      - apply WI_0. }
    pose proof (try_ok n bk bk_ok fee_pos t b1 (static_cost n t) avail (N.min avail (n_max_cost n)) x0 O eq_refl) as T.
    destruct (try_block n bk t avail (N.min avail (n_max_cost n)) x0) as [io x|x| | |]; try discriminate; cbn [tb] in T; intros V;
      eapply settle_ok; eauto; try discriminate. exact (dn_fail _ _ _ _ _ _ _ T).
  Qed.
  Theorem validate_ends bal : validate n bk t bal <> VFuel.
  Proof.
    assert (forall sender sf f io x, settle_fee t sender sf f io x <> VFuel) as SF.
    { intros. unfold settle_fee. destruct (cost_to_fee _ _); [|discriminate]. cbv zeta. destruct (x_bal x sender zero_addr); [|discriminate].
      destruct (_ <? _); [discriminate|]. destruct (t_result t) as [r|]; [|discriminate].
      destruct (negb _); [discriminate|]. destruct (negb _); [discriminate|]. destruct (negb _); [discriminate|].
      destruct (_ || _); [destruct (rs_inputs r); [destruct (rs_outputs r)|]; discriminate|]. destruct (_ && _); discriminate. }
    unfold validate. destruct (negb _); [discriminate|]. destruct (n_max_cost n <? static_cost n t); [discriminate|].
    destruct (N.leb_spec (2 ^ 32) (t_max_fee t)); [discriminate|]. destruct (n_exists n (t_id t)); [discriminate|].
    destruct (fee_to_cost (t_max_fee t) (t_ratio t)) as [avail|]; [|discriminate].
    destruct (cost_to_fee (static_cost n t) (t_ratio t)) as [static_fee|] eqn:CF; [|discriminate].
    destruct (N.ltb_spec (t_max_fee t) static_fee); [discriminate|]. destruct (t_sender t) as [sender|] eqn:TS; [|discriminate].
    destruct (N.eqb_spec (t_nsol t) 0); [discriminate|]. destruct (t_key t sender 0) eqn:TK; try discriminate.
    destruct (bal sender zero_addr) as [b|] eqn:B; [|discriminate]. destruct (N.ltb_spec b static_fee); [discriminate|]. cbv zeta.
    set (x0 := mk_tst _ _ _ _ _). set (b1 := set_balance bal sender zero_addr (b - static_fee)) in *.
    assert (O : OI n bk t b1 (static_cost n t) x0 [] []).
    { split.
      - split; cbn; [lia|]. intros a cur. destruct (b1 a cur); auto. lia.
      - intros a cur. cbn. lia.
      - constructor.
      - intros cur. apply N.le_refl.
      - intros cur _. reflexivity.
      - intros cur. reflexivity.
      - constructor.
      - apply WI_0. }
    pose proof (try_ok n bk bk_ok fee_pos t b1 (static_cost n t) avail (N.min avail (n_max_cost n)) x0 O eq_refl) as T.
    destruct (try_block n bk t avail (N.min avail (n_max_cost n)) x0) as [io x|x| | |]; try discriminate; auto.
  Qed.
End RES.
