(** C80 and C81: mistyped and foreign addresses. *)
Require Import List Arith NArith Bool Lia.
Require Import Verif.BytesLib Verif.BitsLib Verif.CodecModel Verif.AddrProofs Verif.AddrErrSpec Verif.AddrErrProofs Verif.AddrStrProofs.
Import ListNotations.
Open Scope N_scope.

(** ** C80: a mistyped address is never taken for another address *)
(** With up to three wrong characters anywhere: the string is refused, unless it is the address written in another case. *)
Theorem C80_three : forall a s, length a = 32%nat -> bytes_ok a -> length s = length (addr_to_string a) -> (wrong (addr_to_string a) s <= 3)%nat ->
  addr_from_string s = None \/ (addr_from_string s = Some a /\ map lower s = addr_to_string a).
Proof.
  intros a s LA BA LS W. destruct (addr_from_string s) as [b|] eqn:E; [|auto]. right. destruct (found3 a s b LA BA LS W E) as [H ->]. auto.
Qed.
Print Assumptions C80_three.

(** With up to four wrong characters after "mmx1", the same. *)
Theorem C80_four : forall a s, length a = 32%nat -> bytes_ok a -> length s = length (addr_to_string a) -> firstn 4 s = [109; 109; 120; 49] -> (wrong (addr_to_string a) s <= 4)%nat ->
  addr_from_string s = None \/ (addr_from_string s = Some a /\ map lower s = addr_to_string a).
Proof.
  intros a s LA BA LS P W. destruct (addr_from_string s) as [b|] eqn:E; [|auto]. right. destruct (found4 a s b LA BA LS) as [H ->]; auto.
Qed.
Print Assumptions C80_four.

(** Two characters exchanged, wherever they are. *)
Theorem C80_swapped : forall a u v w x y, length a = 32%nat -> bytes_ok a -> addr_to_string a = u ++ x :: v ++ y :: w -> x <> y -> addr_from_string (u ++ y :: v ++ x :: w) = None.
Proof.
  intros a u v w x y LA BA E NE.
  assert (SELF : forall l, wrong l l = 0%nat) by (induction l as [|z l IH]; [reflexivity|]; rewrite wrong_cons, N.eqb_refl; exact IH).
  destruct (C80_three a (u ++ y :: v ++ x :: w) LA BA) as [H|[_ H]]; [rewrite E, !app_length; cbn [length]; rewrite !app_length; reflexivity| |exact H|].
  - rewrite E, wrong_app, SELF, wrong_cons, wrong_app, SELF, wrong_cons, SELF by reflexivity. destruct (x =? y), (y =? x); lia.
  - exfalso. rewrite E in H. destruct (written a) as (vs & _ & _ & _ & _ & _ & LO). rewrite E in LO. rewrite !map_app in H, LO. cbn [map] in H, LO. rewrite !map_app in H, LO. cbn [map] in H, LO.
    assert (K : forall (p q r s : list N) (m n : N), length p = length q -> p ++ m :: r = q ++ n :: s -> m = n).
    { intros p q r s m n L X. assert (Y : nth (length p) (p ++ m :: r) 0 = nth (length p) (q ++ n :: s) 0) by (rewrite X; reflexivity).
      rewrite nth_middle in Y. rewrite L, nth_middle in Y. exact Y. }
    assert (L : length (map lower u) = length u) by apply map_length. pose proof (K _ _ _ _ _ _ L H) as H1.
    assert (LO1 : lower x = x) by (apply (K _ _ _ _ _ _ L LO)).
    assert (U : map lower u = u) by (apply (f_equal (firstn (length u))) in LO; rewrite <- L in LO at 1; rewrite !firstn_app, firstn_all, firstn_all, !Nat.sub_diag in LO; cbn [firstn] in LO; rewrite !app_nil_r in LO; exact LO).
    rewrite U in LO. apply app_inv_head in LO. injection LO as _ LO. assert (L2 : length (map lower v) = length v) by apply map_length. pose proof (K _ _ _ _ _ _ L2 LO) as LO2. congruence.
Qed.
Print Assumptions C80_swapped.

(** ** C81: each address has one string *)
Lemma val32_inj : forall k l, five k -> five l -> length k = length l -> val32 k = val32 l -> k = l.
Proof.
  intros k. induction k as [|x k IH] using rev_ind; intros l K L E V; [destruct l; [reflexivity|discriminate]|].
  destruct l as [|y l _] using rev_ind; [rewrite app_length in E; cbn in E; lia|]. rewrite !app_length in E. cbn in E. rewrite !val32_snoc in V.
  apply Forall_app in K as [K1 K2]. apply Forall_app in L as [L1 L2]. inversion K2; subst. inversion L2; subst.
  assert (x = y) by (apply (f_equal (fun n => n mod 32)) in V; rewrite !(N.add_comm (_ * 32)), !N.mod_add, !N.mod_small in V by (assumption || discriminate); exact V). subst y.
  rewrite (IH l); auto; lia.
Qed.
Lemma groups_of dp : five dp -> length dp = 52%nat -> nth 51 dp 0 = 0 \/ nth 51 dp 0 = 16 -> addr_groups (addr_of_groups dp) = dp.
Proof.
  intros F L P. rewrite addr_of_groups_val by assumption. set (v := val32 (firstn 51 dp)).
  assert (V : v < 2 ^ 255) by (pose proof (val32_bound (firstn 51 dp) (five_firstn _ _ F)) as B; rewrite firstn_length, L in B; exact B).
  set (e := nth 51 dp 0 / 16). assert (E : e < 2) by (unfold e; destruct P as [-> | ->]; reflexivity).
  unfold addr_groups. assert (O : of_le (le_bytes 32 (v * 2 + e)) = v * 2 + e).
  { rewrite of_le_le. apply N.mod_small. change (256 ^ N.of_nat 32) with (2 ^ 255 * 2). lia. }
  rewrite O. rewrite N.shiftr_div_pow2. change (2 ^ 1) with 2. rewrite N.div_add_l, (N.div_small e 2), N.add_0_r by (exact E || discriminate).
  rewrite land_1, N.add_comm, N.mod_add, N.mod_small by (exact E || discriminate). rewrite N.shiftl_mul_pow2. change (2 ^ 4) with 16.
  assert (S : dp = firstn 51 dp ++ [nth 51 dp 0]).
  { rewrite <- (firstn_skipn 51 dp) at 1. f_equal. do 52 (destruct dp as [|? dp]; [discriminate|]). destruct dp; [reflexivity|discriminate]. }
  rewrite S at 1. f_equal.
  - apply val32_inj; [apply groups5_five|apply five_firstn; exact F|rewrite groups5_length, firstn_length; lia|]. rewrite groups5_val. apply N.mod_small. exact V.
  - f_equal. unfold e. destruct P as [-> | ->]; reflexivity.
Qed.
Lemma checksum_only hrp dp c : five (b32_expand hrp) -> five dp -> five c -> length c = 6%nat -> b32_polymod (b32_expand hrp ++ dp ++ c) = b32m_const -> c = b32_checksum hrp dp.
Proof.
  intros FH FD FC LC P. destruct (checksum_valid hrp dp FH FD) as (F6 & L6 & P6). apply val32_inj; try assumption.
  unfold b32_polymod in P, P6. rewrite app_assoc, fold_left_app, b32_append in P by assumption. rewrite app_assoc, fold_left_app, b32_append in P6 by assumption.
  rewrite <- P6 in P. apply (f_equal (N.lxor (fold_left b32_step (repeat 0 6) (fold_left b32_step (b32_expand hrp ++ dp) 1)))) in P.
  rewrite <- !N.lxor_assoc, !N.lxor_nilpotent, !N.lxor_0_l in P. exact P.
Qed.
(** A string of the length of an address that starts with "mmx1" and ends its data in 'q' or 's' (no bits beyond the 256 of an address) is accepted only if it is the string of the address it stands for,
    up to case. *)
Theorem C81_partial : forall s a, length s = 62%nat -> addr_from_string s = Some a ->
  firstn 4 (map lower s) = [109; 109; 120; 49] -> nth 55 (map lower s) 0 = 113 \/ nth 55 (map lower s) 0 = 115 -> map lower s = addr_to_string a.
Proof.
  intros s a L H P Q. destruct (accepted s a L H) as (c1 & c2 & c3 & vs & E & F & LV & PM & -> & _). rewrite E in P, Q |- *. cbn [app firstn] in P. inversion P; subst c1 c2 c3.
  assert (N51 : nth 51 vs 0 = 0 \/ nth 51 vs 0 = 16).
  { assert (X : nth 55 ([109; 109; 120; 49] ++ map b32_char vs) 0 = b32_char (nth 51 vs 0)).
    { rewrite app_nth2 by (cbn; lia). change (55 - length [109; 109; 120; 49])%nat with 51%nat. rewrite (nth_indep _ 0 (b32_char 0)) by (rewrite map_length; lia). apply map_nth. }
    rewrite X in Q. assert (V : nth 51 vs 0 < 32) by (apply five_nth; assumption). revert V Q. generalize (nth 51 vs 0). clear.
    apply (all32 (fun v => b32_char v = 113 \/ b32_char v = 115 -> v = 0 \/ v = 16)). repeat (apply Forall_cons; [intros [H|H]; try discriminate H; auto|]). apply Forall_nil. }
  unfold addr_to_string, b32_encode. set (dp := firstn 52 vs).
  assert (FD : five dp) by (apply five_firstn; exact F). assert (LD : length dp = 52%nat) by (unfold dp; rewrite firstn_length; lia).
  assert (SV : vs = dp ++ skipn 52 vs) by (symmetry; apply firstn_skipn).
  assert (GD : addr_groups (addr_of_groups dp) = dp).
  { apply groups_of; auto. rewrite SV in N51. rewrite app_nth1 in N51 by (fold dp in SV; lia). exact N51. }
  rewrite GD. cbn [app]. do 4 f_equal. rewrite SV at 1. f_equal. f_equal. apply checksum_only; auto.
  - repeat constructor.
  - rewrite SV in F. apply Forall_app in F as [_ F]. exact F.
  - rewrite skipn_length. lia.
  - rewrite <- SV. exact PM.
Qed.
Print Assumptions C81_partial.

(** the prefix is not compared: the address of another network that uses Bech32m with 32 bytes ("xch1...") is accepted *)
Theorem C81_refuted_network : exists s a, firstn 4 s = [120; 99; 104; 49] /\ length a = 32%nat /\ addr_from_string s = Some a /\ s <> addr_to_string a.
Proof.
  exists (b32_encode [120; 99; 104] (addr_groups (map N.of_nat (seq 100 32)))), (map N.of_nat (seq 100 32)). repeat split; try (vm_compute; reflexivity). intros E. vm_compute in E. discriminate.
Qed.
Print Assumptions C81_refuted_network.
(** the four bits after an address are not compared: sixteen strings for each address *)
Theorem C81_refuted_padding : exists s t a, s <> t /\ map lower s = s /\ map lower t = t /\ firstn 4 s = [109; 109; 120; 49] /\ firstn 4 t = [109; 109; 120; 49] /\ addr_from_string s = Some a /\ addr_from_string t = Some a.
Proof.
  set (a := map N.of_nat (seq 100 32)). exists (addr_to_string a), (b32_encode [109; 109; 120] (firstn 51 (addr_groups a) ++ [nth 51 (addr_groups a) 0 + 5])), a.
  split; [intros E; vm_compute in E; discriminate|]. repeat split; vm_compute; reflexivity.
Qed.
Print Assumptions C81_refuted_padding.

(** the hypotheses are met *)
Definition ex_addr : bytes := map N.of_nat (seq 100 32).
Definition mistyped : list N := firstn 10 (addr_to_string ex_addr) ++ [57; 56] ++ firstn 48 (skipn 12 (addr_to_string ex_addr)) ++ [49; 88].
Example C80_met : length ex_addr = 32%nat /\ bytes_ok ex_addr /\ length mistyped = length (addr_to_string ex_addr) /\ firstn 4 mistyped = [109; 109; 120; 49] /\
  wrong (addr_to_string ex_addr) mistyped = 4%nat /\ addr_from_string mistyped = None /\ addr_from_string (addr_to_string ex_addr) = Some ex_addr.
Proof. split; [reflexivity|]. split; [unfold ex_addr, bytes_ok; repeat constructor|]. repeat split; vm_compute; reflexivity. Qed.
Example C80_case : let s := map (fun c => if is_lower c then c - 32 else c) (addr_to_string ex_addr) in map lower s = addr_to_string ex_addr /\ addr_from_string s = Some ex_addr.
Proof. split; vm_compute; reflexivity. Qed.
Example C81_met : length (addr_to_string ex_addr) = 62%nat /\ firstn 4 (map lower (addr_to_string ex_addr)) = [109; 109; 120; 49] /\ nth 55 (map lower (addr_to_string ex_addr)) 0 = 113.
Proof. repeat split; vm_compute; reflexivity. Qed.
