(** Proofs about contracts that sell tokens: fixed prices *)
Require Import List Arith NArith Bool Lia.
From Verif Require Import BytesLib EngineModel EngineUpper CtrModel CtrSpec CtrProofs SaleModel SaleSpec.
Import List ListNotations.
Open Scope N_scope.

Section STEPS.
  Context {S : Type}.
  Implicit Types (c : ctr S) (e : env).
  Lemma self_inv e c v c' : self e c = Some (v, c') -> v = e_self e /\ c' = c.
  Proof. now intros [= <- <-]. Qed.
  Lemma ushr_inv l n e c d c' : ushr l n e c = Some (d, c') -> d = l / 2 ^ n /\ c' = c.
  Proof. now intros [= <- <-]. Qed.
  Lemma ushl_inv l n e c d c' : ushl l n e c = Some (d, c') -> d = (l * 2 ^ n) mod 2 ^ 256 /\ c' = c.
  Proof. now intros [= <- <-]. Qed.
  Lemma ushl_le l n e c d c' : ushl l n e c = Some (d, c') -> d <= l * 2 ^ n /\ c' = c.
  Proof. intros H. apply ushl_inv in H as (-> & ->). split; auto. apply N.mod_le. discriminate. Qed.
  Lemma uadd_le l r e c d c' : uadd l r e c = Some (d, c') -> d <= l + r /\ l <= d /\ d < 2 ^ 256 /\ c' = c.
  Proof.
    unfold uadd. destruct (N.ltb_spec ((l + r) mod 2 ^ 256) l) as [|G]; [discriminate|]. intros [= <- <-]. split; [apply N.mod_le; discriminate|]. split; auto. split; auto. now apply N.mod_lt.
  Qed.
  Lemma send_to_inv dst n cur e c x c' : send_to dst n cur e c = Some (x, c') ->
    (n = 0 /\ c' = c) \/
    (exists a, dst = Some a /\ 0 < n < 2 ^ 128 /\ n <= c_bal c cur /\
     c' = mk_ctr (c_vars c) (fun x => if addr_eqb x cur then c_bal c cur - n else c_bal c x) (mk_payment a cur n :: c_sent c) (c_minted c)).
  Proof.
    destruct dst as [a|]; cbn [send_to]; intros H.
    - apply send_inv in H as [H|H]; auto. right. exists a. tauto.
    - destruct (N.eqb_spec n 0) as [->|]; [|discriminate]. apply ret_inv in H as (_ & ->). auto.
  Qed.
  Lemma mint_to_inv dst n e c x c' : mint_to dst n e c = Some (x, c') ->
    (n = 0 /\ c' = c) \/ (exists a, dst = Some a /\ 0 < n < 2 ^ 80 /\ c' = mk_ctr (c_vars c) (c_bal c) (c_sent c) ((a, n) :: c_minted c)).
  Proof.
    destruct dst as [a|]; cbn [mint_to]; intros H.
    - apply mint_inv in H as [H|H]; auto. right. exists a. tauto.
    - destruct (N.eqb_spec n 0) as [->|]; [|discriminate]. apply ret_inv in H as (_ & ->). auto.
  Qed.
  (** with the check of version 1 products are exact *)
  Lemma umul_exact l r e c d c' : 1 <= e_version e -> umul l r e c = Some (d, c') -> d = l * r /\ c' = c.
  Proof.
    unfold umul. intros V. destruct (N.leb_spec 1 (e_version e)) as [_|]; [|lia]. set (M := 2 ^ 256). assert (0 < M) by reflexivity. clearbody M. destruct (N.eqb_spec l 0) as [->|NZ]; cbn [negb andb].
    - intros [= <- <-]. rewrite N.mul_0_l, N.mod_0_l; [auto|lia].
    - destruct (N.ltb_spec ((M - 1) / l) r) as [|L]; [discriminate|]. intros [= <- <-]. split; auto. apply N.mod_small.
      assert (l * r <= l * ((M - 1) / l)) by (apply N.mul_le_mono_l; auto). pose proof (N.mul_div_le (M - 1) l NZ). lia.
  Qed.
End STEPS.
Ltac simp2 H :=
  lazymatch type of H with
  | self _ _ = _ => apply self_inv in H as (-> & ->)
  | ushr _ _ _ _ = _ => apply ushr_inv in H as (-> & ->)
  | _ => simp H
  end.
Ltac steps2 H := repeat (first [ simp2 H | lazymatch type of H with bind _ _ _ _ = _ => let x := fresh "x" in let c := fresh "c" in let H1 := fresh "H" in apply bind_inv in H as (x & c & H1 & H); try simp2 H1 end ]).

Lemma addr_eqb_eq a b : addr_eqb a b = true -> a = b.
Proof. now destruct (addr_eqb_spec a b). Qed.

(** ** fixed_price_liquid_token.js *)
Module Liquid.
  Import LiquidToken.
  Section LIQUID.
    Variables (price0 ratio0 : N) (cur me : addr).
    Hypothesis PR : 0 < price0.
    Hypothesis RA : ratio0 < 1000.
    Hypothesis ME : me <> cur.
    Definition backing (T : N) (v : vars) (bal : addr -> N) : Prop :=
      price v = price0 /\ ratio v = ratio0 /\ currency v = cur /\ owner_balance v < 2 ^ 256 /\ owner_balance v <= bal cur /\
      T * 2 ^ 64 * (1000 - ratio0) <= (bal cur - owner_balance v) * 1000 * price0.
    Lemma backing_more T T' v bal bal' : T' <= T -> bal cur <= bal' cur -> backing T v bal -> backing T' v bal'.
    Proof.
      intros LT LB (A & B & C & W & D & E). repeat (split; auto); [lia|]. transitivity (T * 2 ^ 64 * (1000 - ratio0)); [apply N.mul_le_mono_r, N.mul_le_mono_r; auto|].
      transitivity ((bal cur - owner_balance v) * 1000 * price0); auto. apply N.mul_le_mono_r, N.mul_le_mono_r. lia.
    Qed.
    Lemma begin_bal e (v : vars) bal : bal cur <= c_bal (begin e v bal) cur.
    Proof. cbn [begin c_bal]. destruct (e_deposit e) as [(x, n)|]; [|lia]. unfold credit. destruct (addr_eqb cur x); lia. Qed.
    Lemma begin_dep e (v : vars) bal n : e_deposit e = Some (cur, n) -> c_bal (begin e v bal) cur = bal cur + n.
    Proof. intros E. cbn [begin c_bal]. rewrite E. unfold credit. now rewrite addr_eqb_refl. Qed.

    Lemma buy_math T n o m R ob : T * 2 ^ 64 * (1000 - ratio0) <= (R - ob) * 1000 * price0 -> ob <= R -> o * 1000 <= n * ratio0 -> m * 2 ^ 64 <= n * price0 ->
      (T + m) * 2 ^ 64 * (1000 - ratio0) <= (R + n - (ob + o)) * 1000 * price0 /\ ob + o <= R + n.
    Proof.
      generalize (2 ^ 64) as Q. intros Q I L O M. assert (ON : o <= n). { assert (o * 1000 <= n * 1000); [|lia]. transitivity (n * ratio0); auto. apply N.mul_le_mono_l. lia. }
      split; [|lia]. replace (R + n - (ob + o)) with ((R - ob) + (n - o)) by lia.
      replace ((T + m) * Q * (1000 - ratio0)) with (T * Q * (1000 - ratio0) + m * Q * (1000 - ratio0)) by ring.
      replace ((R - ob + (n - o)) * 1000 * price0) with ((R - ob) * 1000 * price0 + (n - o) * 1000 * price0) by ring. apply N.add_le_mono; auto.
      transitivity (n * price0 * (1000 - ratio0)); [apply N.mul_le_mono_r; auto|]. replace (n * price0 * (1000 - ratio0)) with (n * (1000 - ratio0) * price0) by ring. apply N.mul_le_mono_r.
      rewrite !N.mul_sub_distr_r, N.mul_sub_distr_l. lia.
    Qed.
    (** what a sale is worth is covered *)
    Lemma sale_math T n x R : T * 2 ^ 64 * (1000 - ratio0) <= R * 1000 * price0 -> n <= T -> x * 1000 * price0 <= n * 2 ^ 64 * (1000 - ratio0) ->
      x <= R /\ (T - n) * 2 ^ 64 * (1000 - ratio0) <= (R - x) * 1000 * price0.
    Proof.
      generalize (2 ^ 64) as Q. intros Q I L X. assert (XR : x <= R).
      { assert (x * 1000 * price0 <= R * 1000 * price0). { transitivity (n * Q * (1000 - ratio0)); auto. transitivity (T * Q * (1000 - ratio0)); auto. apply N.mul_le_mono_r, N.mul_le_mono_r. auto. }
        assert (x * 1000 <= R * 1000) by (apply (N.mul_le_mono_pos_r _ _ price0); auto). lia. }
      split; auto. rewrite !N.mul_sub_distr_r. lia.
    Qed.
    Lemma two_floors a d r : d / price0 * r / 1000 = a -> a * 1000 * price0 <= d * r.
    Proof.
      intros <-. pose proof (N.mul_div_le (d / price0 * r) 1000 ltac:(discriminate)) as A. pose proof (N.mul_div_le d price0 ltac:(lia)) as B.
      set (y := d / price0) in *. set (z := y * r / 1000) in *. transitivity (y * r * price0); [apply N.mul_le_mono_r; lia|]. replace (y * r * price0) with (price0 * y * r) by ring. now apply N.mul_le_mono_r.
    Qed.

    Lemma call_backing T v bal e m c : backing T v bal -> e_self e = me ->
      match e_deposit e with Some (x, n) => x = me -> n <= T | None => True end -> match m with Recover _ x => x <> cur | _ => True end ->
      exec m e (begin e v bal) = Some (tt, c) -> backing (T + total (rev (c_minted c)) - paid_to native me (rev (c_sent c))) (c_vars c) (c_bal c).
    Proof.
      intros B ES HT NR H. unfold exec in H. apply bind_inv in H as (v' & c' & H0 & H). apply get_inv in H0 as (-> & ->). cbn [begin c_vars] in H.
      pose proof B as (P & Ra & C & WI & LO & I). pose proof (begin_bal e v bal) as BB. destruct m as [| |amount|amount x|a].
      - (* Buy *) apply bind_inv in H as ((dc, n) & c1 & H1 & H). apply deposit_inv in H1 as (DE & ->). cbn [fst snd] in H.
        apply bind_inv in H as (w1 & c1 & H1 & H). apply assert_inv in H1 as (E & ->). apply addr_eqb_eq in E. subst dc. rewrite C in *.
        apply bind_inv in H as (o1 & c1 & H1 & H). apply umul_le in H1 as (O1 & _ & ->). apply bind_inv in H as (o & c1 & H1 & H). apply udiv_inv in H1 as (_ & O2 & ->).
        apply bind_inv in H as (b & c1 & H1 & H). apply uadd_le in H1 as (B1 & B2 & B3 & ->). apply bind_inv in H as (w2 & c1 & H1 & H). apply set_inv in H1. subst c1.
        apply bind_inv in H as (m1 & c1 & H1 & H). apply umul_le in H1 as (M1 & _ & ->). apply bind_inv in H as (m & c1 & H1 & H). apply ushr_inv in H1 as (M2 & ->).
        apply bind_inv in H as (u & c1 & H1 & H). apply user_inv in H1 as (-> & ->).
        pose proof (begin_dep e v bal n DE) as BD.
        assert (OM : o * 1000 <= n * ratio0). { subst o. pose proof (N.mul_div_le o1 1000 ltac:(discriminate)). rewrite Ra in O1. lia. }
        assert (MM : m * 2 ^ 64 <= n * price0). { subst m. pose proof (N.mul_div_le m1 (2 ^ 64) ltac:(discriminate)). rewrite P in M1. lia. }
        destruct (buy_math T n o m (bal cur) (owner_balance v) I LO OM MM) as (G1 & G2).
        assert (G3 : (T + m) * 2 ^ 64 * (1000 - ratio0) <= (bal cur + n - b) * 1000 * price0). { transitivity ((bal cur + n - (owner_balance v + o)) * 1000 * price0); auto. apply N.mul_le_mono_r, N.mul_le_mono_r. lia. }
        apply mint_to_inv in H as [(-> & ->)|(a & _ & _ & ->)]; cbn [c_minted c_sent c_vars c_bal rev app total paid_to fold_right snd begin].
        + rewrite N.add_0_r, N.sub_0_r. rewrite N.add_0_r in G3. change (match e_deposit e with Some (c0, amount) => credit bal c0 amount | None => bal end) with (c_bal (begin e v bal)).
          split; [exact P|]. split; [exact Ra|]. split; [exact C|]. cbn [set_owner_balance owner_balance]. rewrite BD. split; [exact B3|]. split; [lia|exact G3].
        + rewrite N.add_0_r, N.sub_0_r. change (match e_deposit e with Some (c0, amount) => credit bal c0 amount | None => bal end) with (c_bal (begin e v bal)).
          split; [exact P|]. split; [exact Ra|]. split; [exact C|]. cbn [set_owner_balance owner_balance]. rewrite BD. split; [exact B3|]. split; [lia|exact G3].
      - (* Sell *) apply bind_inv in H as ((dc, n) & c1 & H1 & H). apply deposit_inv in H1 as (DE & ->). cbn [fst snd] in H.
        apply bind_inv in H as (w3 & c1 & H1 & H). apply self_inv in H1 as (-> & ->).
        apply bind_inv in H as (w4 & c1 & H1 & H). apply assert_inv in H1 as (E & ->). apply addr_eqb_eq in E. subst dc. rewrite DE in HT. specialize (HT ES). rewrite ES in *.
        apply bind_inv in H as (x1 & c1 & H1 & H). apply ushl_le in H1 as (X1 & ->). apply bind_inv in H as (x2 & c1 & H1 & H). apply udiv_inv in H1 as (_ & X2 & ->).
        apply bind_inv in H as (r & c1 & H1 & H). apply usub_inv in H1 as (_ & -> & ->); [|reflexivity|rewrite Ra; lia].
        apply bind_inv in H as (x3 & c1 & H1 & H). apply umul_le in H1 as (X3 & _ & ->). apply bind_inv in H as (x & c1 & H1 & H). apply udiv_inv in H1 as (_ & X4 & ->).
        apply bind_inv in H as (u & c1 & H1 & H). apply user_inv in H1 as (-> & ->).
        assert (XM : x * 1000 * price0 <= n * 2 ^ 64 * (1000 - ratio0)).
        { rewrite P in X2. rewrite Ra in X3. subst x x2. transitivity (x1 * (1000 - ratio0)); [|now apply N.mul_le_mono_r].
          transitivity (x1 / price0 * (1000 - ratio0) / 1000 * 1000 * price0); [|now apply two_floors]. apply N.mul_le_mono_r, N.mul_le_mono_r. apply N.div_le_mono; [discriminate|auto]. }
        destruct (sale_math T n x (bal cur - owner_balance v) I HT XM) as (G1 & G2).
        assert (CB : forall y, (if addr_eqb cur (e_self e) then y else bal cur) = bal cur). { intros y. destruct (addr_eqb_spec cur (e_self e)); [congruence|auto]. }
        assert (BC : c_bal (begin e v bal) cur = bal cur). { cbn [begin c_bal]. rewrite DE. unfold credit. destruct (addr_eqb_spec cur me); [congruence|auto]. }
        rewrite C in H.
        apply bind_inv in H as (w5 & c1 & H1 & H). 
        assert (S1 : exists l, c_vars c1 = v /\ c_bal c1 cur = bal cur - x /\ c_minted c1 = [] /\ c_sent c1 = l /\ (forall q, In q l -> pm_currency q = cur)).
        { apply send_to_inv in H1 as [(-> & ->)|(a & _ & _ & L & ->)]; [exists []|exists [mk_payment a cur x]]; cbn [begin c_vars c_bal c_minted c_sent] in *.
          - repeat split; auto; [|contradiction]. rewrite BC. lia.
          - repeat split; auto; [|intros q [<-|[]]; reflexivity]. rewrite addr_eqb_refl. rewrite BC. reflexivity. }
        destruct S1 as (l & V1 & B1 & M1 & S1 & L1). clear H1.
        assert (PL : forall l, (forall q, In q l -> pm_currency q = cur) -> paid_to native me (rev l) = 0).
        { clear - ME. intros l L. assert (R : forall q, In q (rev l) -> pm_currency q = cur) by (intros q Q; apply L; now apply in_rev). induction (rev l) as [|q r IH]; cbn; auto.
          rewrite (R q) by (cbn; auto). destruct (addr_eqb_spec cur me); [congruence|]. rewrite andb_false_r. apply IH. intros; apply R; cbn; auto. }
        apply send_inv in H as [(-> & ->)|(N1 & L & ->)].
        + rewrite M1, S1, PL by auto. cbn [rev total fold_right]. rewrite N.add_0_r, N.sub_0_r. rewrite V1. repeat (split; auto); [rewrite B1; lia|]. rewrite B1. rewrite N.sub_0_r in G2.
          replace (bal cur - x - owner_balance v) with (bal cur - owner_balance v - x) by lia. exact G2.
        + cbn [c_minted c_sent c_vars c_bal rev]. rewrite M1, S1. cbn [rev total fold_right].
          assert (PA : paid_to native me (rev l ++ [mk_payment native me n]) = n).
          { clear - PL L1. specialize (PL l L1). revert PL. induction (rev l) as [|q r IH]; cbn [app paid_to fold_right pm_to pm_currency pm_amount].
            - intros _. rewrite !addr_eqb_refl. cbn. lia.
            - intros Z. fold (paid_to native me r) in Z. fold (paid_to native me (r ++ [mk_payment native me n])). rewrite IH; lia. }
          rewrite PA, N.add_0_r, V1. repeat (split; auto).
          * destruct (addr_eqb_spec cur me); [congruence|]. rewrite B1. lia.
          * destruct (addr_eqb_spec cur me); [congruence|]. rewrite B1. replace (bal cur - x - owner_balance v) with (bal cur - owner_balance v - x) by lia. exact G2.
      - (* Withdraw *) apply bind_inv in H as (w6 & c1 & H1 & H). unfold check_owner in H1. steps2 H1. cbv zeta in H. set (n := if amount =? 0 then owner_balance v else amount) in *. clearbody n.
        apply bind_inv in H as (w7 & c1 & H1 & H). apply assert_inv in H1 as (E & ->). apply N.leb_le in E. apply bind_inv in H as (b & c1 & H1 & H).
        apply usub_inv in H1 as (_ & -> & ->); auto; [|eapply N.le_lt_trans; eauto]. apply bind_inv in H as (w8 & c1 & H1 & H). apply set_inv in H1. subst c1. rewrite C in H.
        apply send_inv in H as [(-> & ->)|(N1 & L & ->)]; cbn [c_minted c_sent c_vars c_bal rev app total fold_right begin].
        + cbn [paid_to fold_right]. rewrite N.add_0_r, N.sub_0_r. replace (set_owner_balance v (owner_balance v - 0)) with v by (rewrite N.sub_0_r; destruct v; reflexivity). exact (backing_more T T v bal _ (N.le_refl _) BB B).
        + cbn [begin c_bal] in *. set (bb := match e_deposit e with Some (c0, amount0) => credit bal c0 amount0 | None => bal end) in *. clearbody bb. rewrite N.add_0_r.
          apply (backing_more T _ _ (fun x => if addr_eqb x cur then bb cur - n else bb x)); [lia|apply N.le_refl|]. repeat (split; auto); cbn [set_owner_balance owner_balance]; [lia|rewrite addr_eqb_refl; lia|].
          rewrite addr_eqb_refl. transitivity ((bal cur - owner_balance v) * 1000 * price0); auto. apply N.mul_le_mono_r, N.mul_le_mono_r. lia.
      - (* Recover *) apply bind_inv in H as (w9 & c1 & H1 & H). unfold check_owner in H1. steps2 H1. 
        apply send_inv in H as [(-> & ->)|(N1 & L & ->)]; cbn [c_minted c_sent c_vars c_bal rev app total fold_right begin] in *.
        + cbn [paid_to fold_right]. rewrite N.add_0_r, N.sub_0_r. exact (backing_more T T v bal _ (N.le_refl _) BB B).
        + rewrite N.add_0_r. apply (backing_more T _ v bal); auto; [lia|]. destruct (addr_eqb_spec cur x); [congruence|]. exact BB.
      - (* Transfer *) apply bind_inv in H as (w10 & c1 & H1 & H). unfold check_owner in H1. steps2 H1. apply set_inv in H. subst c. cbn [c_minted c_sent c_vars c_bal rev app total paid_to fold_right begin] in *.
        rewrite N.add_0_r, N.sub_0_r. exact (backing_more T T (mk a (price v) (ratio v) (currency v) (owner_balance v)) bal _ (N.le_refl _) BB B).
    Qed.
    Lemma history_backing T x h l y k : history exec x h l y k -> backing T (fst x) (snd x) -> possible me T l -> no_recovery cur l -> backing (circulating me T l) (fst y) (snd y).
    Proof.
      intros H. revert T. induction H as [x h|x h ev p m y l z h' k HA HH LE H IH]; intros T B PO NR; cbn [circulating]; auto. cbn [possible ev_of paid_by minted_by fst snd] in *. destruct PO as (P1 & P2).
      apply IH; auto; [|intros e n c q w I; apply (NR e n c q w); now right]. inversion HA as [v bal e me' c E|v bal cu n]; subst; cbn [fst snd] in *.
      - destruct P1 as (P1 & P3). eapply call_backing; eauto. destruct me' as [| | |n c'|]; auto. eapply NR. left. reflexivity.
      - cbn [total paid_to fold_right]. rewrite N.add_0_r, N.sub_0_r. apply (backing_more T T _ bal); auto; [lia|]. unfold credit. destruct (addr_eqb cur cu); lia.
    Qed.
    (** a sale succeeds *)
    Lemma sell_succeeds T v bal e u n : backing T v bal -> e_self e = me -> e_user e = Some u -> e_deposit e = Some (me, n) -> n <= T -> n < 2 ^ 128 -> bal cur < 2 ^ 128 ->
      exists c, exec Sell e (begin e v bal) = Some (tt, c) /\ paid_to u cur (rev (c_sent c)) = sale_value price0 ratio0 n /\ paid_to native me (rev (c_sent c)) = n /\ c_vars c = v.
    Proof.
      intros (P & Ra & C & WI & LO & I) ES EU DE NT N1 BC.
      assert (Q1 : n * 2 ^ 64 < 2 ^ 192). { change (2 ^ 192) with (2 ^ 128 * 2 ^ 64). apply N.mul_lt_mono_pos_r; auto. reflexivity. }
      assert (Q2 : n * 2 ^ 64 / price0 <= n * 2 ^ 64) by (apply N.div_le_upper_bound; nia).
      assert (Q3 : n * 2 ^ 64 / price0 * (1000 - ratio0) < 2 ^ 256).
      { apply N.le_lt_trans with (2 ^ 192 * 1000); [|reflexivity]. apply N.mul_le_mono; [|lia]. apply N.lt_le_incl. eapply N.le_lt_trans; [exact Q2|exact Q1]. }
      assert (XM : sale_value price0 ratio0 n * 1000 * price0 <= n * 2 ^ 64 * (1000 - ratio0)) by (now apply two_floors).
      destruct (sale_math T n _ (bal cur - owner_balance v) I NT XM) as (G1 & _). unfold exec, bind, get, deposit, self, assert, udiv, user. cbn [begin c_vars]. rewrite DE, ES. cbn [fst snd]. rewrite addr_eqb_refl.
      unfold ushl, ret. rewrite N.mod_small by (eapply N.lt_trans; [exact Q1|reflexivity]). rewrite P, Ra. destruct (N.eqb_spec price0 0); [lia|]. rewrite usub_ok by (lia || reflexivity). rewrite umul_ok by exact Q3.
      change (1000 =? 0) with false. cbv iota. rewrite EU, C. cbn [send_to]. fold (sale_value price0 ratio0 n). set (x := sale_value price0 ratio0 n) in *. clearbody x. clear Q1 Q2 Q3 I XM.
      set (c0 := begin e v bal).
      assert (B0 : c_bal c0 cur = bal cur) by (cbn; rewrite DE; unfold credit; destruct (addr_eqb_spec cur me); [congruence|auto]).
      assert (B1 : n <= c_bal c0 me) by (cbn; rewrite DE; unfold credit; rewrite addr_eqb_refl; lia).
      assert (S1 : exists c1, send u x cur e c0 = Some (tt, c1) /\ c_vars c1 = v /\ c_bal c1 me = c_bal c0 me /\ paid_to u cur (rev (c_sent c1)) = x /\ paid_to native me (rev (c_sent c1)) = 0).
      { destruct (N.eq_dec x 0) as [->|NZ].
        - exists c0. repeat split; auto.
        - rewrite send_ok by (rewrite ?B0; lia). eexists. split; [reflexivity|]. cbn. rewrite !addr_eqb_refl. cbn. destruct (addr_eqb_spec me cur); [congruence|]. destruct (addr_eqb_spec cur me); [congruence|].
          rewrite andb_false_r. repeat split; auto; lia. }
      destruct S1 as (c1 & S1 & V1 & M1 & P1 & P2). rewrite S1. destruct (N.eq_dec n 0) as [->|NZ].
      - exists c1. repeat split; auto.
      - rewrite send_ok by (rewrite ?M1; lia). eexists. split; [reflexivity|]. cbn [c_sent rev c_vars].
        assert (PA : forall a b l q, paid_to a b (l ++ [q]) = paid_to a b l + paid_to a b [q]).
        { intros a b l q. unfold paid_to at 1 2. induction l as [|w l IH]; cbn [app fold_right]; [reflexivity|]. rewrite IH. lia. }
        rewrite !PA, P1, P2. cbn. rewrite !addr_eqb_refl. destruct (addr_eqb_spec me cur); [congruence|]. rewrite andb_false_r. cbn. repeat split; auto; lia.
    Qed.
    (** ** The owner's part *)
    Definition owner_inv (O : N) (v : vars) : Prop := ratio v = ratio0 /\ currency v = cur /\ owner_balance v < 2 ^ 256 /\ owner_balance v <= O.
    Lemma call_owner O v bal e m c : owner_inv O v -> exec m e (begin e v bal) = Some (tt, c) ->
      let o := match m with Buy => match e_deposit e with Some (_, n) => owner_part ratio0 n | None => 0 end | _ => 0 end in
      let w := match m with Withdraw _ => total_paid cur (rev (c_sent c)) | _ => 0 end in w <= O + o /\ owner_inv (O + o - w) (c_vars c).
    Proof.
      intros (Ra & C & WI & LO) H. unfold exec in H. apply bind_inv in H as (v' & c' & H0 & H). apply get_inv in H0 as (-> & ->). cbn [begin c_vars] in H. destruct m as [| |amount|amount x|a]; cbv zeta.
      - apply bind_inv in H as ((dc, n) & c1 & H1 & H). apply deposit_inv in H1 as (DE & ->). rewrite DE. cbn [fst snd] in H.
        apply bind_inv in H as (z1 & c1 & H1 & H). apply assert_inv in H1 as (_ & ->).
        apply bind_inv in H as (o1 & c1 & H1 & H). apply umul_le in H1 as (O1 & _ & ->). apply bind_inv in H as (o & c1 & H1 & H). apply udiv_inv in H1 as (_ & O2 & ->).
        apply bind_inv in H as (b & c1 & H1 & H). apply uadd_le in H1 as (B1 & B2 & B3 & ->). apply bind_inv in H as (z2 & c1 & H1 & H). apply set_inv in H1. subst c1.
        apply bind_inv in H as (m1 & c1 & H1 & H). apply umul_le in H1 as (M1 & _ & ->). apply bind_inv in H as (m & c1 & H1 & H). apply ushr_inv in H1 as (M2 & ->).
        apply bind_inv in H as (u & c1 & H1 & H). apply user_inv in H1 as (-> & ->). rewrite N.sub_0_r. split; [lia|].
        assert (OP : o <= owner_part ratio0 n) by (subst o; unfold owner_part; rewrite Ra in O1; apply N.div_le_mono; [discriminate|auto]).
        apply mint_to_inv in H as [(_ & ->)|(a & _ & _ & ->)]; repeat (split; auto); cbn [c_vars set_owner_balance owner_balance]; lia.
      - assert (K : c_vars c = v).
        { steps2 H. repeat match goal with K : ushl _ _ _ _ = _ |- _ => apply ushl_le in K as (_ & ->) | K : udiv _ _ _ _ = _ |- _ => apply udiv_inv in K as (_ & _ & ->) | K : umul _ _ _ _ = _ |- _ => apply umul_le in K as (_ & _ & ->) end.
          repeat match goal with K : usub _ _ _ _ = _ |- _ => unfold usub in K; destruct (_ <? _); [discriminate|injection K as _ <-] end.
          repeat match goal with K : send_to _ _ _ _ _ = _ |- _ => apply send_to_inv in K as [(_ & ->)|(? & _ & _ & _ & ->)] end; apply send_inv in H as [(_ & ->)|(_ & _ & ->)]; reflexivity. }
        rewrite K. rewrite N.sub_0_r, N.add_0_r. split; [lia|]. repeat (split; auto).
      - apply bind_inv in H as (z0 & c1 & H1 & H). unfold check_owner in H1. steps2 H1. set (n := if amount =? 0 then owner_balance v else amount) in *. clearbody n.
        apply bind_inv in H as (z0' & c1 & H1 & H). apply assert_inv in H1 as (E & ->). apply N.leb_le in E. apply bind_inv in H as (b & c1 & H1 & H).
        apply usub_inv in H1 as (_ & -> & ->); auto; [|eapply N.le_lt_trans; eauto]. apply bind_inv in H as (z1 & c1 & H1 & H). apply set_inv in H1. subst c1. rewrite C in H. rewrite N.add_0_r.
        apply send_inv in H as [(-> & ->)|(_ & L & ->)]; cbn [c_minted c_sent c_vars c_bal rev app total_paid fold_right pm_currency pm_amount begin].
        + split; [lia|]. repeat (split; auto); cbn [set_owner_balance owner_balance]; lia.
        + rewrite addr_eqb_refl, N.add_0_r. split; [lia|]. repeat (split; auto); cbn [set_owner_balance owner_balance]; lia.
      - apply bind_inv in H as (z0 & c1 & H1 & H). unfold check_owner in H1. steps2 H1. rewrite N.add_0_r, N.sub_0_r. split; [lia|].
        apply send_inv in H as [(_ & ->)|(_ & _ & ->)]; repeat (split; auto).
      - apply bind_inv in H as (z0 & c1 & H1 & H). unfold check_owner in H1. steps2 H1. apply set_inv in H. subst c. rewrite N.add_0_r, N.sub_0_r. split; [lia|]. repeat (split; auto).
    Qed.
    Lemma history_owner O x h l y k : history exec x h l y k -> owner_inv O (fst x) -> withdrawn cur l <= O + owners_parts ratio0 l.
    Proof.
      intros H. revert O. induction H as [x h|x h ev p m y l z h' k HA HH LE H IH]; intros O B; cbn [withdrawn owners_parts fold_right]; [lia|]. fold (withdrawn cur l) (owners_parts ratio0 l). cbn [ev_of paid_by fst snd].
      inversion HA as [v bal e me' c E|v bal cu n]; subst; cbn [fst snd] in *.
      - pose proof (call_owner O v bal e me' c B E) as K. cbv zeta in K. destruct K as (K1 & K2). specialize (IH _ K2). destruct me'; lia.
      - specialize (IH _ B). lia.
    Qed.
  End LIQUID.
End Liquid.

(** ** Tokens are minted at the price *)
Module Mints.
  Definition price_kept (price0 : N) (cur : addr) (v : PriceToken.vars) : Prop := PriceToken.price v = price0 /\ PriceToken.currency v = cur.
  Definition buys {M} (buy : M) (price0 : N) (cur : addr) (ev : event M) (mints : list (addr * N)) : Prop :=
    exists e u n, ev = Call e buy /\ e_user e = Some u /\ e_deposit e = Some (cur, n) /\ mints = [(u, n * price0 / 2 ^ 64)].
  Lemma price_call price0 cur v bal e m c : 1 <= e_version e -> price_kept price0 cur v -> PriceToken.exec m e (begin e v bal) = Some (tt, c) ->
    price_kept price0 cur (c_vars c) /\ (rev (c_minted c) = [] \/ buys PriceToken.Buy price0 cur (Call e m) (rev (c_minted c))) /\
    (c_sent c = [] \/ e_user e = Some (PriceToken.owner v) /\ all_to (PriceToken.owner v) (rev (c_sent c))).
  Proof.
    intros V (P & C) H. unfold PriceToken.exec in H. apply bind_inv in H as (v' & c' & H0 & H). apply get_inv in H0 as (-> & ->). cbn [begin c_vars] in H. destruct m as [|amount|amount x|a].
    - apply bind_inv in H as ((dc, n) & c1 & H1 & H). apply deposit_inv in H1 as (DE & ->). cbn [fst snd] in H.
      apply bind_inv in H as (z1 & c1 & H1 & H). apply assert_inv in H1 as (E & ->). apply addr_eqb_eq in E. subst dc. rewrite C in DE.
      apply bind_inv in H as (m1 & c1 & H1 & H). apply umul_exact in H1 as (-> & ->); auto. apply bind_inv in H as (m & c1 & H1 & H). apply ushr_inv in H1 as (-> & ->).
      apply bind_inv in H as (u & c1 & H1 & H). apply user_inv in H1 as (-> & ->). rewrite P in H.
      apply mint_to_inv in H as [(_ & ->)|(a & U & _ & ->)]; cbn [c_vars c_minted c_sent begin rev app]; (split; [split; auto|]); split; auto. right. exists e, a, n. auto.
    - apply bind_inv in H as (z0 & c1 & H1 & H). unfold PriceToken.check_owner in H1. steps2 H1. apply bind_inv in H as (b & c1 & H1 & H). apply balance_inv in H1 as (-> & ->).
      apply send_inv in H as [(_ & ->)|(_ & _ & ->)]; cbn [c_vars c_minted c_sent begin rev app]; (split; [split; auto|]); split; auto. right. split; auto. repeat constructor.
    - apply bind_inv in H as (z0 & c1 & H1 & H). unfold PriceToken.check_owner in H1. steps2 H1.
      apply send_inv in H as [(_ & ->)|(_ & _ & ->)]; cbn [c_vars c_minted c_sent begin rev app]; (split; [split; auto|]); split; auto. right. split; auto. repeat constructor.
    - apply bind_inv in H as (z0 & c1 & H1 & H). unfold PriceToken.check_owner in H1. steps2 H1. apply set_inv in H. subst c. cbn [c_vars c_minted c_sent begin rev app]. split; [split; auto|]. split; auto.
  Qed.
  Lemma price_history price0 cur x h l y k : history PriceToken.exec x h l y k -> price_kept price0 cur (fst x) -> current l ->
    forall z, In z l -> minted_by z = [] \/ buys PriceToken.Buy price0 cur (ev_of z) (minted_by z).
  Proof.
    intros H. induction H as [x h|x h ev p m y l z h' k HA HH LE H IH]; intros B CU w I; [contradiction|]. inversion HA as [v bal e me' c E|v bal cu n]; subst; cbn [fst snd] in *.
    - assert (V : 1 <= e_version e) by (eapply CU; [left; reflexivity|reflexivity]). destruct (price_call price0 cur v bal e me' c V B E) as (K & M & _).
      destruct I as [<-|I]; [exact M|]. apply IH; auto. intros q e' m' J. apply CU. now right.
    - destruct I as [<-|I]; [left; reflexivity|]. apply IH; auto. intros q e' m' J. apply CU. now right.
  Qed.
  Definition liquid_kept (price0 : N) (cur : addr) (v : LiquidToken.vars) : Prop := LiquidToken.price v = price0 /\ LiquidToken.currency v = cur.
  Lemma liquid_call price0 cur v bal e m c : 1 <= e_version e -> liquid_kept price0 cur v -> LiquidToken.exec m e (begin e v bal) = Some (tt, c) ->
    liquid_kept price0 cur (c_vars c) /\ (rev (c_minted c) = [] \/ buys LiquidToken.Buy price0 cur (Call e m) (rev (c_minted c))).
  Proof.
    intros V (P & C) H. unfold LiquidToken.exec in H. apply bind_inv in H as (v' & c' & H0 & H). apply get_inv in H0 as (-> & ->). cbn [begin c_vars] in H. destruct m as [| |amount|amount x|a].
    - apply bind_inv in H as ((dc, n) & c1 & H1 & H). apply deposit_inv in H1 as (DE & ->). cbn [fst snd] in H.
      apply bind_inv in H as (z1 & c1 & H1 & H). apply assert_inv in H1 as (E & ->). apply addr_eqb_eq in E. subst dc. rewrite C in DE.
      apply bind_inv in H as (o1 & c1 & H1 & H). apply umul_le in H1 as (_ & _ & ->). apply bind_inv in H as (o & c1 & H1 & H). apply udiv_inv in H1 as (_ & _ & ->).
      apply bind_inv in H as (b & c1 & H1 & H). apply uadd_same in H1. subst c1. apply bind_inv in H as (z2 & c1 & H1 & H). apply set_inv in H1. subst c1.
      apply bind_inv in H as (m1 & c1 & H1 & H). apply umul_exact in H1 as (-> & ->); auto. apply bind_inv in H as (m & c1 & H1 & H). apply ushr_inv in H1 as (-> & ->).
      apply bind_inv in H as (u & c1 & H1 & H). apply user_inv in H1 as (-> & ->). rewrite P in H.
      apply mint_to_inv in H as [(_ & ->)|(a & U & _ & ->)]; cbn [c_vars c_minted c_sent begin rev app]; (split; [split; auto|]); auto. right. exists e, a, n. auto.
    - assert (K : c_vars c = v /\ c_minted c = []).
      { steps2 H. repeat match goal with K : ushl _ _ _ _ = _ |- _ => apply ushl_le in K as (_ & ->) | K : udiv _ _ _ _ = _ |- _ => apply udiv_inv in K as (_ & _ & ->) | K : umul _ _ _ _ = _ |- _ => apply umul_le in K as (_ & _ & ->) end.
        repeat match goal with K : usub _ _ _ _ = _ |- _ => unfold usub in K; destruct (_ <? _); [discriminate|injection K as _ <-] end.
        repeat match goal with K : send_to _ _ _ _ _ = _ |- _ => apply send_to_inv in K as [(_ & ->)|(? & _ & _ & _ & ->)] end; apply send_inv in H as [(_ & ->)|(_ & _ & ->)]; split; reflexivity. }
      destruct K as (-> & ->). split; [split; auto|auto].
    - apply bind_inv in H as (z0 & c1 & H1 & H). unfold LiquidToken.check_owner in H1. steps2 H1. steps2 H.
      repeat match goal with K : usub _ _ _ _ = _ |- _ => unfold usub in K; destruct (_ <? _); [discriminate|injection K as _ <-] end.
      apply send_inv in H as [(_ & ->)|(_ & _ & ->)]; cbn [c_vars c_minted c_sent begin rev app]; (split; [split; auto|]); auto.
    - apply bind_inv in H as (z0 & c1 & H1 & H). unfold LiquidToken.check_owner in H1. steps2 H1.
      apply send_inv in H as [(_ & ->)|(_ & _ & ->)]; cbn [c_vars c_minted c_sent begin rev app]; (split; [split; auto|]); auto.
    - apply bind_inv in H as (z0 & c1 & H1 & H). unfold LiquidToken.check_owner in H1. steps2 H1. apply set_inv in H. subst c. cbn [c_vars c_minted c_sent begin rev app]. split; [split; auto|]. auto.
  Qed.
  Lemma liquid_history price0 cur x h l y k : history LiquidToken.exec x h l y k -> liquid_kept price0 cur (fst x) -> current l ->
    forall z, In z l -> minted_by z = [] \/ buys LiquidToken.Buy price0 cur (ev_of z) (minted_by z).
  Proof.
    intros H. induction H as [x h|x h ev p m y l z h' k HA HH LE H IH]; intros B CU w I; [contradiction|]. inversion HA as [v bal e me' c E|v bal cu n]; subst; cbn [fst snd] in *.
    - assert (V : 1 <= e_version e) by (eapply CU; [left; reflexivity|reflexivity]). destruct (liquid_call price0 cur v bal e me' c V B E) as (K & M).
      destruct I as [<-|I]; [exact M|]. apply IH; auto. intros q e' m' J. apply CU. now right.
    - destruct I as [<-|I]; [left; reflexivity|]. apply IH; auto. intros q e' m' J. apply CU. now right.
  Qed.
End Mints.
