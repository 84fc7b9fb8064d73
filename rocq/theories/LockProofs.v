(** A transaction depends on the storage of no other contracts than those it has locked, and writes to no others *)
Require Import List Arith NArith ZArith Bool Lia.
From Verif Require Import BytesLib OrdLib VarModel InstrModel EngineModel ExecModel StorModel TxModel IsoProofs.
Import ListNotations.
Open Scope N_scope.

Section LOCKS.
  Variable n : node.
  Variable t : tx.
  Let P := n_locked n t.
  Variables bk bk' : backend.
  Hypothesis AG : agree P bk bk'.
  Let E := tx_env n bk t.
  Let E' := tx_env n bk' t.
  Definition own_locked : Prop := (forall o, In o (t_ops t) -> P (if addr_eqb (op_address o) zero_addr then t_id t else op_address o) = true) /\
    (t_deploy t <> None -> P (t_id t) = true).
  Definition calls_locked : Prop :=
    (forall a k ex, P a = true -> n_contract n a = Some k -> k_exec k = Some ex -> forall e, In e (snd ex) -> P (snd e) = true) /\
    (forall d ex, t_deploy t = Some d -> k_exec (dp_contract d) = Some ex -> forall e, In e (snd ex) -> P (snd e) = true).
  Hypothesis OWN : own_locked.
  Hypothesis CALLS : calls_locked.

  Definition tsame {A} (m m' : TM A) : Prop := forall x, ram_in P (w_ram (x_world x)) -> m x = m' x /\ forall a y, m x = TOk a y -> ram_in P (w_ram (x_world y)).
  Lemma tsame_ret A (a : A) : tsame (tret a) (tret a).
  Proof. intros x R. split; auto. now intros b y [= <- <-]. Qed.
  Lemma tsame_fail A : tsame (@tfail A) tfail.
  Proof. intros x R. split; auto. intros b y [=]. Qed.
  Lemma tsame_static A : tsame (fun _ => @TStatic A) (fun _ => TStatic).
  Proof. intros x R. split; auto. intros b y [=]. Qed.
  Lemma tsame_get : tsame tget tget.
  Proof. intros x R. split; auto. now intros b y [= <- <-]. Qed.
  Lemma tsame_bind A B (m m' : TM A) (k k' : A -> TM B) : tsame m m' -> (forall a, tsame (k a) (k' a)) -> tsame (tbind m k) (tbind m' k').
  Proof.
    intros H K x R. unfold tbind. destruct (H x R) as (<- & H1). destruct (m x) as [a y|y| | |]; try (split; [reflexivity|discriminate]).
    apply K. eauto.
  Qed.
  Lemma tsame_get_bind A (k k' : tst -> TM A) : (forall x, ram_in P (w_ram (x_world x)) -> tsame (k x) (k' x)) -> tsame (tbind tget k) (tbind tget k').
  Proof. intros H x R. unfold tbind, tget. apply (H x R x R). Qed.
  Lemma tsame_bind_q A B (Q : A -> Prop) (m m' : TM A) (k k' : A -> TM B) : tsame m m' -> (forall x a y, m x = TOk a y -> Q a) ->
    (forall a, Q a -> tsame (k a) (k' a)) -> tsame (tbind m k) (tbind m' k').
  Proof.
    intros H HQ K x R. unfold tbind. destruct (H x R) as (<- & H1). destruct (m x) as [a y|y| | |] eqn:E1; try (split; [reflexivity|discriminate]).
    apply K; eauto.
  Qed.
  Lemma tsame_set x : ram_in P (w_ram (x_world x)) -> tsame (tset x) (tset x).
  Proof. intros R y _. split; auto. now intros b z [= <- <-]. Qed.
  Lemma tsame_each A (f f' : A -> TM unit) l : (forall a, In a l -> tsame (f a) (f' a)) -> tsame (teach f l) (teach f' l).
  Proof. induction l as [|a l IH]; intros H; cbn [teach]; [apply tsame_ret|]. apply tsame_bind; [apply H; now left|]. intros _. apply IH. intros b I. apply H. now right. Qed.
  Lemma tsame_check c : tsame (tcheck c) (tcheck c).
  Proof. destruct c; [apply tsame_ret|apply tsame_static|apply tsame_fail]. Qed.
  Lemma tsame_read_cost l a : tsame (read_cost n l a) (read_cost n l a).
  Proof. unfold read_cost. apply tsame_get_bind. intros x R. destruct (_ <? _); [apply tsame_fail|now apply tsame_set]. Qed.

  Lemma E'_eq : E' = with_backend bk' E. Proof. reflexivity. Qed.
  Lemma tsame_exec_op avail k address c init : P address = true -> (forall ex, k_exec k = Some ex -> forall e, In e (snd ex) -> P (snd e) = true) ->
    tsame (exec_op n bk t avail k address c init) (exec_op n bk' t avail k address c init).
  Proof.
    intros LK CX. unfold exec_op. destruct (k_exec k) as [ex|] eqn:EX; [|apply tsame_fail]. apply tsame_get_bind. intros x R. cbv zeta.
    set (limit := N.min (avail - _) _). set (s := engine_new address _ limit false _).
    assert (G : good E s) by (split; [exact LK|exact R]).
    fold E E'. rewrite E'_eq. apply tsame_bind.
    { destruct (cl_user c) as [u|]; [|apply tsame_ret]. rewrite <- (proj1 (same_charge_contract E bk' u s G)).
      destruct (charge_contract E u s); [apply tsame_check|apply tsame_fail..]. }
    intros _.
    assert (B : same E (exec_before n bk t address c) (exec_before n bk' t address c)).
    { unfold exec_before. fold E E'. rewrite E'_eq. apply same_bind; [apply (same_start_setup E bk' AG)|]. intros _. apply same_bind; [apply (same_add_deposit E bk' AG)|]. intros _.
      destruct (n_hf2 n); [apply same_ret|apply (same_op_setup E bk' AG)]. }
    assert (B2 : same E (exec_rest n bk t ex c init) (exec_rest n bk' t ex c init)).
    { unfold exec_rest. fold E E'. rewrite E'_eq. apply same_bind; [apply (same_prepare E bk' AG)|]. intros m. apply same_bind; [destruct (n_hf2 n); [apply (same_op_setup E bk' AG)|apply same_ret]|].
      intros _. apply (same_run_method E bk' AG). intros a9 b9 n9. apply (same_remote_call E bk' AG).
      - intros a0 k0 ex0 LK0 K0 X0 e I. exact (proj1 CALLS a0 k0 ex0 LK0 K0 X0 e I).
      - intros k0 ex0 _ D0 X0 e I. cbn in D0. destruct (t_deploy t) as [d|] eqn:D; [|discriminate]. injection D0 as <-. exact (proj2 CALLS d ex0 D X0 e I).
      - exact (CX ex eq_refl). }
    destruct (B s G) as (<- & H1). destruct (exec_before n bk t address c s) as [u s1|s1|s1|].
    2:{ apply tsame_fail. } 2:{ intros y Ry. split; [reflexivity|discriminate]. } 2:{ intros y Ry. split; [reflexivity|discriminate]. }
    destruct (H1 u s1 eq_refl) as (_ & G1). destruct (B2 s1 G1) as (<- & H2). destruct (exec_rest n bk t ex c init s1) as [u2 s2|s2|s2|].
    2,3,4: intros y Ry; split; [reflexivity|discriminate].
    destruct (H2 u2 s2 eq_refl) as (_ & G2). apply tsame_set. exact (proj2 G2).
  Qed.
  Lemma tsame_input l i : tsame (do_input n t l i) (do_input n t l i).
  Proof.
    unfold do_input. apply tsame_get_bind. intros x R. destruct (x_bal x _ _); [|apply tsame_fail]. destruct (_ <? _); [apply tsame_fail|]. destruct (_ <=? _); [apply tsame_static|].
    apply tsame_bind.
    - destruct (ti_exec i); [|apply tsame_check]. apply tsame_bind; [apply tsame_read_cost|]. intros _. destruct (n_contract n _); [apply tsame_check|apply tsame_fail].
    - intros _. apply tsame_get_bind. intros y Ry. now apply tsame_set.
  Qed.
  Lemma tsame_output o : tsame (do_output o) (do_output o).
  Proof. unfold do_output. apply tsame_get_bind. intros x R. destruct (_ =? _); [apply tsame_fail|]. destruct (_ <? _); [apply tsame_fail|now apply tsame_set]. Qed.
  Lemma tsame_deploy avail d : t_deploy t = Some d -> tsame (do_deploy n bk t avail d) (do_deploy n bk' t avail d).
  Proof.
    intros D. unfold do_deploy. destruct (negb _); [apply tsame_fail|]. destruct (k_exec (dp_contract d)) as [ex|] eqn:EX; [|apply tsame_ret].
    destruct (forallb _ _); [|apply tsame_fail]. apply tsame_exec_op; [apply OWN; congruence|]. intros ex' X. exact (proj2 CALLS d ex' D X).
  Qed.
  Lemma tsame_op avail limit o : In o (t_ops t) -> tsame (do_op n bk t avail limit o) (do_op n bk' t avail limit o).
  Proof.
    intros I. unfold do_op. destruct (negb _); [apply tsame_fail|]. cbv zeta. pose proof (proj1 OWN o I) as LK.
    set (address := if addr_eqb (op_address o) zero_addr then t_id t else op_address o) in *.
    assert (REST : forall k, (forall ex, k_exec k = Some ex -> forall e, In e (snd ex) -> P (snd e) = true) ->
      tsame (tbind match op_call o with
             | Some c =>
               match cl_deposit c with
               | Some (cur, amount) =>
                 tbind tget (fun x => let v := mget addr_eqb cur (x_amounts x) in
                 if v <? amount then tfail
                 else tset (mk_tst (x_cost x) (x_bal x) ((cur, v - amount) :: x_amounts x) (((address, cur), amount) :: x_dep x) (x_world x)))
               | None => tret tt
               end
             | None => tret tt
             end (fun _ => match op_call o with Some c => exec_op n bk t avail k address c false | None => tret tt end))
            (tbind match op_call o with
             | Some c =>
               match cl_deposit c with
               | Some (cur, amount) =>
                 tbind tget (fun x => let v := mget addr_eqb cur (x_amounts x) in
                 if v <? amount then tfail
                 else tset (mk_tst (x_cost x) (x_bal x) ((cur, v - amount) :: x_amounts x) (((address, cur), amount) :: x_dep x) (x_world x)))
               | None => tret tt
               end
             | None => tret tt
             end (fun _ => match op_call o with Some c => exec_op n bk' t avail k address c false | None => tret tt end))).
    { intros k CK. apply tsame_bind.
      - destruct (op_call o) as [c|]; [|apply tsame_ret]. destruct (cl_deposit c) as [(cur, amount)|]; [|apply tsame_ret]. apply tsame_get_bind. intros x R. cbv zeta.
        destruct (_ <? _); [apply tsame_fail|now apply tsame_set].
      - intros _. destruct (op_call o); [|apply tsame_ret]. now apply tsame_exec_op. }
    destruct (addr_eqb address (t_id t)).
    - intros x R. unfold tbind at 1 3, tret. destruct (t_deploy t) as [d|] eqn:D; cbn [option_map]; [|now apply tsame_fail].
      apply (REST (dp_contract d)); auto. intros ex X. exact (proj2 CALLS d ex D X).
    - apply (tsame_bind_q _ _ (fun k => k = n_contract n address)).
      + apply tsame_bind; [apply tsame_read_cost|]. intros _. apply tsame_ret.
      + intros x k y. unfold tbind. destruct (read_cost n limit address x); try discriminate. intros [= <- _]. reflexivity.
      + intros k ->. destruct (n_contract n address) as [k|] eqn:K; [|apply tsame_fail]. apply REST. intros ex X. exact (proj1 CALLS address k ex LK K X).
  Qed.
  Lemma tsame_try avail limit : tsame (try_block n bk t avail limit) (try_block n bk' t avail limit).
  Proof.
    unfold try_block. destruct (_ <? _); [apply tsame_fail|]. apply tsame_bind; [apply tsame_each; intros; apply tsame_input|]. intros _.
    apply tsame_bind; [apply tsame_each; intros; apply tsame_output|]. intros _.
    apply tsame_bind; [destruct (t_deploy t) eqn:D; [now apply tsame_deploy|apply tsame_ret]|]. intros _.
    apply tsame_bind; [apply tsame_each; intros; now apply tsame_op|]. intros _.
    apply tsame_get_bind. intros x R. cbv zeta. destruct (implicit_deposit t x); [|apply tsame_fail]. apply tsame_bind; [now apply tsame_set|]. intros _.
    destruct (_ <? _); [apply tsame_static|]. destruct (_ <=? _); [apply tsame_static|apply tsame_ret].
  Qed.
  Lemma settle_world sender sf f io x r w : settle_fee t sender sf f io x = VDone r (Some w) -> w = x_world x /\ f = false.
  Proof.
    unfold settle_fee. destruct (cost_to_fee _ _); [|discriminate]. destruct (x_bal x sender zero_addr); [|discriminate]. destruct (_ <? _); [discriminate|].
    destruct f; cbn [orb].
    - destruct (t_result t) as [r0|]; [|discriminate]. destruct (negb _); [discriminate|]. destruct (negb _); [discriminate|]. destruct (negb _); [discriminate|].
      destruct (rs_inputs r0); [|discriminate]. destruct (rs_outputs r0); discriminate.
    - destruct (t_max_fee t <? _).
      + destruct (t_result t) as [r0|]; [|discriminate]. destruct (negb _); [discriminate|]. destruct (negb _); [discriminate|]. destruct (negb _); [discriminate|].
        destruct (rs_inputs r0); [|discriminate]. destruct (rs_outputs r0); discriminate.
      + destruct (t_result t) as [r0|]; [|intros [= _ <-]; auto]. destruct (negb _); [discriminate|]. destruct (negb _); [discriminate|]. destruct (negb _); [discriminate|].
        destruct (_ && _); [intros [= _ <-]; auto|discriminate].
  Qed.
  Theorem validate_same bal : validate n bk t bal = validate n bk' t bal /\ forall r w, validate n bk t bal = VDone r (Some w) -> ram_in P (w_ram w).
  Proof.
    unfold validate. destruct (negb _); [split; [reflexivity|discriminate]|]. destruct (_ <? _); [split; [reflexivity|discriminate]|].
    destruct (_ <=? _); [split; [reflexivity|discriminate]|]. destruct (n_exists n (t_id t)); [split; [reflexivity|discriminate]|].
    destruct (fee_to_cost _ _) as [avail|]; [|split; [reflexivity|discriminate]]. destruct (cost_to_fee _ _) as [sf|]; [|split; [reflexivity|discriminate]].
    destruct (_ <? _); [split; [reflexivity|discriminate]|]. destruct (t_sender t) as [sender|]; [|split; [reflexivity|discriminate]].
    destruct (_ =? _); [split; [reflexivity|discriminate]|]. destruct (t_key t sender 0); [|split; [reflexivity|discriminate]..].
    destruct (bal sender zero_addr) as [b|]; [|split; [reflexivity|discriminate]]. destruct (_ <? _); [split; [reflexivity|discriminate]|]. cbv zeta.
    set (x := mk_tst _ _ _ _ _).
    assert (R : ram_in P (w_ram (x_world x))) by (split; intros e []).
    destruct (tsame_try avail (N.min avail (n_max_cost n)) x R) as (<- & H). split; auto.
    destruct (try_block n bk t avail _ x) as [io y|y| | |]; try discriminate; intros r w S; apply settle_world in S as (-> & F); [eapply H; reflexivity|discriminate].
  Qed.
End LOCKS.
