(** Running the contracts of CtrModel.v symbolically *)
Require Import List Arith NArith Bool Lia.
From Verif Require Import BytesLib EngineModel EngineUpper CtrModel.
Import ListNotations.
Open Scope N_scope.

Section INV.
  Context {S : Type}.
  Implicit Types (c : ctr S) (e : env).
  Lemma bind_inv {A B} (m : act S A) (k : A -> act S B) e c y c' : bind m k e c = Some (y, c') -> exists x c1, m e c = Some (x, c1) /\ k x e c1 = Some (y, c').
  Proof. unfold bind. destruct (m e c) as [(x, c1)|]; [eauto|discriminate]. Qed.
  Lemma ret_inv {A} (x y : A) e c c' : ret x e c = Some (y, c') -> y = x /\ c' = c.
  Proof. now intros [= <- <-]. Qed.
  Lemma assert_inv b e c x c' : assert b e c = Some (x, c') -> b = true /\ c' = c.
  Proof. unfold assert. destruct b; [now intros [= <- <-]|discriminate]. Qed.
  Lemma get_inv e c v c' : get e c = Some (v, c') -> v = c_vars c /\ c' = c.
  Proof. now intros [= <- <-]. Qed.
  Lemma set_inv s e c x c' : set s e c = Some (x, c') -> c' = mk_ctr s (c_bal c) (c_sent c) (c_minted c).
  Proof. now intros [= <- <-]. Qed.
  Lemma user_inv e c v c' : user e c = Some (v, c') -> v = e_user e /\ c' = c.
  Proof. now intros [= <- <-]. Qed.
  Lemma height_inv e c v c' : height e c = Some (v, c') -> v = e_height e /\ c' = c.
  Proof. now intros [= <- <-]. Qed.
  Lemma deposit_inv e c v c' : deposit e c = Some (v, c') -> e_deposit e = Some v /\ c' = c.
  Proof. unfold deposit. destruct (e_deposit e); [now intros [= <- <-]|discriminate]. Qed.
  Lemma balance_inv cur e c v c' : balance cur e c = Some (v, c') -> v = c_bal c cur /\ c' = c.
  Proof. now intros [= <- <-]. Qed.
  Lemma send_inv dst n cur e c x c' : send dst n cur e c = Some (x, c') ->
    (n = 0 /\ c' = c) \/
    (0 < n < 2 ^ 128 /\ n <= c_bal c cur /\
     c' = mk_ctr (c_vars c) (fun x => if addr_eqb x cur then c_bal c cur - n else c_bal c x) (mk_payment dst cur n :: c_sent c) (c_minted c)).
  Proof.
    unfold send. destruct (N.eqb_spec n 0) as [->|]; [intros [= <- <-]; auto|]. destruct (N.leb_spec (2 ^ 128) n); [discriminate|]. destruct (N.ltb_spec (c_bal c cur) n); [discriminate|].
    intros E. right. injection E as <- <-. split; [lia|]. auto.
  Qed.
  Lemma mint_inv dst n e c x c' : mint dst n e c = Some (x, c') ->
    (n = 0 /\ c' = c) \/ (0 < n < 2 ^ 80 /\ c' = mk_ctr (c_vars c) (c_bal c) (c_sent c) ((dst, n) :: c_minted c)).
  Proof.
    unfold mint. destruct (N.eqb_spec n 0) as [->|]; [intros [= <- <-]; auto|]. destruct (N.leb_spec (2 ^ 80) n); [discriminate|].
    intros E. right. injection E as <- <-. split; [lia|]. auto.
  Qed.
  Lemma uadd_inv l r e c d c' : uadd l r e c = Some (d, c') -> l < 2 ^ 256 -> r < 2 ^ 256 -> d = l + r /\ d < 2 ^ 256 /\ c' = c.
  Proof.
    unfold uadd. set (M := 2 ^ 256). assert (0 < M) by reflexivity. clearbody M. destruct (N.ltb_spec ((l + r) mod M) l) as [|G]; [discriminate|]. intros [= <- <-] B1 B2.
    destruct (N.lt_ge_cases (l + r) M) as [L|L]; [rewrite N.mod_small by auto; auto|]. exfalso.
    assert (E : (l + r) mod M = l + r - M). { symmetry. apply (N.mod_unique _ _ 1); lia. } lia.
  Qed.
  Lemma uadd_same l r e c d c' : uadd l r e c = Some (d, c') -> c' = c.
  Proof. unfold uadd. destruct (_ <? l); [discriminate|]. now intros [= _ <-]. Qed.
  Lemma usub_inv l r e c d c' : usub l r e c = Some (d, c') -> l < 2 ^ 256 -> r < 2 ^ 256 -> r <= l /\ d = l - r /\ c' = c.
  Proof.
    unfold usub. set (M := 2 ^ 256). assert (0 < M) by reflexivity. clearbody M. destruct (N.ltb_spec l ((l + M - r) mod M)) as [|G]; [discriminate|]. intros [= <- <-] B1 B2.
    destruct (N.le_gt_cases r l) as [L|L].
    - assert (E : (l + M - r) mod M = l - r). { symmetry. apply (N.mod_unique _ _ 1); lia. } auto.
    - exfalso. rewrite N.mod_small in G by lia. lia.
  Qed.
  (** what is kept of a product never exceeds it *)
  Lemma umul_le l r e c d c' : umul l r e c = Some (d, c') -> d <= l * r /\ d < 2 ^ 256 /\ c' = c.
  Proof.
    unfold umul. match goal with |- (if ?b then _ else _) = _ -> _ => destruct b end; [discriminate|]. intros [= <- <-].
    assert (2 ^ 256 <> 0) by discriminate. split; [now apply N.mod_le|]. split; auto. now apply N.mod_lt.
  Qed.
  Lemma umul_inv l r e c d c' : umul l r e c = Some (d, c') -> l * r < 2 ^ 256 -> d = l * r /\ c' = c.
  Proof.
    unfold umul. intros H B. rewrite N.mod_small in H by auto. match type of H with (if ?b then _ else _) = _ => destruct b end; [discriminate|]. now injection H as <- <-.
  Qed.
  Lemma udiv_inv l r e c d c' : udiv l r e c = Some (d, c') -> r <> 0 /\ d = l / r /\ c' = c.
  Proof. unfold udiv. destruct (N.eqb_spec r 0); [discriminate|]. now intros [= <- <-]. Qed.
  Lemma check_user_inv a e c x c' : check_user a e c = Some (x, c') -> e_user e = Some a /\ c' = c.
  Proof.
    unfold check_user. intros H. apply bind_inv in H as (u & c1 & H & H'). apply user_inv in H as (-> & ->). apply assert_inv in H' as (H & ->). split; auto.
    destruct (e_user e) as [y|]; [|discriminate]. cbn in H. destruct (addr_eqb_spec y a); [congruence|discriminate].
  Qed.
  (** the other direction *)
  Lemma check_user_ok a e c : e_user e = Some a -> check_user a e c = Some (tt, c).
  Proof. intros H. unfold check_user, bind, user, assert. rewrite H. cbn [is_user]. now rewrite addr_eqb_refl. Qed.
  Lemma uadd_ok l r e c : l + r < 2 ^ 256 -> uadd l r e c = Some (l + r, c).
  Proof. intros B. unfold uadd. rewrite N.mod_small by auto. destruct (N.ltb_spec (l + r) l); [lia|reflexivity]. Qed.
  Lemma usub_ok l r e c : r <= l -> l < 2 ^ 256 -> usub l r e c = Some (l - r, c).
  Proof.
    intros L B. unfold usub. set (M := 2 ^ 256) in *. assert (0 < M) by reflexivity. clearbody M.
    replace ((l + M - r) mod M) with (l - r) by (apply (N.mod_unique _ _ 1); lia). destruct (N.ltb_spec l (l - r)); [lia|reflexivity].
  Qed.
  Lemma umul_ok l r e c : l * r < 2 ^ 256 -> umul l r e c = Some (l * r, c).
  Proof.
    intros B. unfold umul. rewrite N.mod_small by auto. destruct (N.eqb_spec l 0) as [->|NZ].
    - cbn [negb andb N.mul]. destruct (1 <=? e_version e); [reflexivity|]. reflexivity.
    - destruct (1 <=? e_version e).
      + cbn [negb andb]. set (M := 2 ^ 256) in *. assert (0 < M) by reflexivity. clearbody M. destruct (N.ltb_spec ((M - 1) / l) r) as [L|]; [|reflexivity]. exfalso.
        assert (r <= (M - 1) / l) by (apply N.div_le_lower_bound; lia). lia.
      + destruct (N.eqb_spec r 0) as [->|NR]; [rewrite N.mul_0_r; destruct (N.ltb_spec 0 0); [lia|]; now rewrite andb_false_r|].
        destruct (N.ltb_spec (l * r) l); [nia|reflexivity].
  Qed.
  Lemma send_ok dst n cur e c : 0 < n < 2 ^ 128 -> n <= c_bal c cur ->
    send dst n cur e c = Some (tt, mk_ctr (c_vars c) (fun x => if addr_eqb x cur then c_bal c cur - n else c_bal c x) (mk_payment dst cur n :: c_sent c) (c_minted c)).
  Proof.
    intros (B1 & B2) L. unfold send. destruct (N.eqb_spec n 0); [lia|]. destruct (N.leb_spec (2 ^ 128) n); [lia|]. destruct (N.ltb_spec (c_bal c cur) n); [lia|reflexivity].
  Qed.
End INV.
Ltac step H :=
  let x := fresh "x" in let c := fresh "c" in let H1 := fresh "H" in
  apply bind_inv in H as (x & c & H1 & H).
Ltac simp H :=
  lazymatch type of H with
  | get _ _ = _ => apply get_inv in H as (-> & ->)
  | user _ _ = _ => apply user_inv in H as (-> & ->)
  | height _ _ = _ => apply height_inv in H as (-> & ->)
  | balance _ _ _ = _ => apply balance_inv in H as (-> & ->)
  | ret _ _ _ = _ => let Q := fresh in apply ret_inv in H as (Q & ->); first [rewrite Q in *; clear Q | clear Q]
  | set _ _ _ = _ => apply set_inv in H; subst
  | deposit _ _ = _ => apply deposit_inv in H as (H & ->)
  | assert _ _ _ = _ => let E := fresh "E" in pose proof H as E; apply assert_inv in E as (E & ->); clear H
  | check_user _ _ _ = _ => let U := fresh "U" in pose proof H as U; apply check_user_inv in U as (U & ->); clear H
  end.
Ltac steps H := repeat (first [ simp H | lazymatch type of H with bind _ _ _ _ = _ => let x := fresh "x" in let c := fresh "c" in let H1 := fresh "H" in apply bind_inv in H as (x & c & H1 & H); try simp H1 end ]).

(** ** Balances: what a contract holds changes by what it receives and pays *)
Definition paid (cur : addr) (l : list payment) : N := fold_right (fun p s => (if addr_eqb (pm_currency p) cur then pm_amount p else 0) + s) 0 l.
Definition keeps {S A} (a : act S A) : Prop := forall e c x c', a e c = Some (x, c') -> forall cur, c_bal c' cur + paid cur (c_sent c') = c_bal c cur + paid cur (c_sent c).
Section KEEPS.
  Context {S : Type}.
  Lemma k_bind {A B} (m : act S A) (k : A -> act S B) : keeps m -> (forall x, keeps (k x)) -> keeps (bind m k).
  Proof. intros H1 H2 e c y c' H cur. apply bind_inv in H as (x & c1 & E1 & E2). rewrite (H2 x _ _ _ _ E2 cur). now apply (H1 _ _ _ _ E1). Qed.
  Lemma k_pure {A} (a : act S A) : (forall e c x c', a e c = Some (x, c') -> c_bal c' = c_bal c /\ c_sent c' = c_sent c) -> keeps a.
  Proof. intros H e c x c' E cur. now destruct (H _ _ _ _ E) as (-> & ->). Qed.
  Lemma k_send dst n cur : @keeps S unit (send dst n cur).
  Proof.
    intros e c x c' H cu. apply send_inv in H as [(-> & ->)|(_ & L & ->)]; auto. cbn [c_bal c_sent paid fold_right pm_currency pm_amount]. fold (paid cu (c_sent c)).
    destruct (addr_eqb_spec cu cur) as [->|NE]; [rewrite addr_eqb_refl; lia|]. destruct (addr_eqb_spec cur cu); [congruence|lia].
  Qed.
  Lemma k_mint dst n : @keeps S unit (mint dst n).
  Proof. apply k_pure. intros e c x c' H. apply mint_inv in H as [(_ & ->)|(_ & ->)]; auto. Qed.
  Lemma k_set s : @keeps S unit (set s). Proof. apply k_pure. now intros e c x c' [= <- <-]. Qed.
  Lemma k_get : @keeps S S get. Proof. apply k_pure. now intros e c x c' [= <- <-]. Qed.
  Lemma k_user : @keeps S _ user. Proof. apply k_pure. now intros e c x c' [= <- <-]. Qed.
  Lemma k_height : @keeps S _ height. Proof. apply k_pure. now intros e c x c' [= <- <-]. Qed.
  Lemma k_balance cur : @keeps S _ (balance cur). Proof. apply k_pure. now intros e c x c' [= <- <-]. Qed.
  Lemma k_ret {A} (x : A) : @keeps S _ (ret x). Proof. apply k_pure. now intros e c y c' [= <- <-]. Qed.
  Lemma k_fail {A} : @keeps S A fail. Proof. now intros e c y c' H. Qed.
  Lemma k_assert b : @keeps S _ (assert b). Proof. apply k_pure. intros e c x c' H. apply assert_inv in H as (_ & ->). auto. Qed.
  Lemma k_deposit : @keeps S _ deposit. Proof. apply k_pure. intros e c x c' H. apply deposit_inv in H as (_ & ->). auto. Qed.
  Lemma k_check a : @keeps S _ (check_user a). Proof. apply k_pure. intros e c x c' H. apply check_user_inv in H as (_ & ->). auto. Qed.
  Lemma k_uadd l r : @keeps S _ (uadd l r). Proof. apply k_pure. unfold uadd. intros e c x c'. destruct (_ <? l); [discriminate|]. now intros [= _ <-]. Qed.
  Lemma k_usub l r : @keeps S _ (usub l r). Proof. apply k_pure. unfold usub. intros e c x c'. destruct (l <? _); [discriminate|]. now intros [= _ <-]. Qed.
  Lemma k_umul l r : @keeps S _ (umul l r).
  Proof. apply k_pure. intros e c x c' H. apply umul_le in H as (_ & _ & ->). auto. Qed.
  Lemma k_udiv l r : @keeps S _ (udiv l r). Proof. apply k_pure. intros e c x c' H. apply udiv_inv in H as (_ & _ & ->). auto. Qed.
End KEEPS.
#[export] Hint Resolve k_send k_mint k_set k_get k_user k_height k_balance k_ret k_fail k_assert k_deposit k_check k_uadd k_usub k_umul k_udiv : keeps.
Ltac keeps_tac := repeat first [ progress (auto with keeps) | apply k_bind; [|intro] | progress cbv zeta | progress unfold ushr, ushl
  | match goal with |- keeps (match ?x with _ => _ end) => destruct x end | match goal with |- keeps (if ?x then _ else _) => destruct x end ].

(** ** Histories that can be computed, for the examples *)
Section REPLAY.
  Context {S M : Type}.
  Variable exec : M -> act S unit.
  Fixpoint replay (x : S * (addr -> N)) (h : N) (evs : list (event M)) : option (list (event M * list payment * list (addr * N)) * (S * (addr -> N)) * N) :=
    match evs with
    | [] => Some ([], x, h)
    | ev :: evs =>
      let next := match ev with
        | Call e m => if h <=? e_height e then match exec m e (begin e (fst x) (snd x)) with
                        | Some (_, c) => Some (rev (c_sent c), rev (c_minted c), (c_vars c, c_bal c), e_height e) | None => None end else None
        | Receive cur n => Some ([], [], (fst x, credit (snd x) cur n), h)
        end in
      match next with
      | Some (p, m, y, h') => match replay y h' evs with Some (l, z, k) => Some ((ev, p, m) :: l, z, k) | None => None end
      | None => None
      end
    end.
  Lemma replay_history evs : forall x h l z k, replay x h evs = Some (l, z, k) -> history exec x h l z k.
  Proof.
    induction evs as [|ev evs IH]; intros x h l z k; cbn [replay]; [intros [= <- <- <-]; constructor|].
    destruct ev as [e m|cur n].
    - destruct (N.leb_spec h (e_height e)) as [L|]; [|discriminate]. destruct (exec m e (begin e (fst x) (snd x))) as [([], c)|] eqn:E; [|discriminate].
      destruct (replay (c_vars c, c_bal c) (e_height e) evs) as [((l', z'), k')|] eqn:R; [|discriminate]. intros [= <- <- <-]. destruct x as (s, bal). econstructor; [now constructor|reflexivity|exact L|auto].
    - destruct (replay (fst x, credit (snd x) cur n) h evs) as [((l', z'), k')|] eqn:R; [|discriminate]. intros [= <- <- <-]. destruct x as (s, bal). econstructor; [now constructor|reflexivity|lia|auto].
  Qed.
End REPLAY.
