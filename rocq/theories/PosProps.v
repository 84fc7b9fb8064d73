(** C16: plot park symbols, C50: line points *)
Require Import List NArith Lia.
From Verif Require Import PosModel PosSpec PosProofs.
Import ListNotations.
Open Scope N_scope.

(** The full statement fails: a symbol of more than 16 bits that follows a refill at the end of a 64-bit word is cut off.
    24 is the smallest symbol for which this happens. *)
Theorem C16_refuted : exists syms ws, Forall (fun s => s < 25) syms /\ encode syms = Some ws /\
  decode ws (length syms) 0 <> Some syms.
Proof.
  exists [18; 24; 24; 18; 24; 24; 24; 18; 24; 24; 24; 18; 24; 24; 24; 18; 24; 24; 24].
  exists (match encode [18; 24; 24; 18; 24; 24; 24; 18; 24; 24; 24; 18; 24; 24; 24; 18; 24; 24; 24] with Some w => w | None => [] end).
  split; [repeat constructor|]. split; [vm_compute; reflexivity|]. vm_compute. discriminate.
Qed.
Print Assumptions C16_refuted.
(** The encoder accepts exactly the symbols 0..47. *)
Theorem C16_accepts : forall syms, (exists ws, encode syms = Some ws) <-> Forall (fun s => s < 48) syms.
Proof.
  intros syms. split.
  - unfold encode. generalize 0 at 1 as o. generalize 0 as b. induction syms as [|s r IH]; intros b o [ws E]; [constructor|].
    cbn [encode_loop] in E. destruct (N.lt_ge_cases s 48) as [L|L].
    + constructor; [exact L|]. destruct (encode_symbol s) as [[c l]|]; [|discriminate].
      match type of E with match encode_loop r ?x ?y with _ => _ end = _ => destruct (encode_loop r x y) eqn:R; [|discriminate];
        apply (IH y x); eauto end.
    + rewrite symbol_none in E by exact L. discriminate.
  - intros F. destruct (encode_spec syms F) as (ws & E & _). eauto.
Qed.
Print Assumptions C16_accepts.
(** For symbols 0..23 the round trip holds, for every length. *)
Theorem C16_round_trip_partial : forall syms, Forall (fun s => s < 24) syms ->
  exists ws, encode syms = Some ws /\ decode ws (length syms) 0 = Some syms.
Proof. exact round_trip. Qed.
Print Assumptions C16_round_trip_partial.
(** ... and when the encoded bits are found at some offset of a longer stream, unless the offset is in the last 15 bits
    of a word. *)
Theorem C16_offset_partial : forall syms enc ws offset, Forall (fun s => s < 24) syms -> encode syms = Some enc ->
  Forall (fun w => w < 2 ^ 64) ws -> offset mod 64 <= 48 -> offset + stream_bits syms <= 64 * N.of_nat (length ws) ->
  (wval ws / 2 ^ offset) mod 2 ^ stream_bits syms = wval enc ->
  decode ws (length syms) offset = Some syms.
Proof. exact round_trip_at. Qed.
Print Assumptions C16_offset_partial.
(** The offset condition is needed: symbol 3 (bits 11 00) at offset 62 of a stream of two words *)
Theorem C16_offset_refuted : exists ws, (wval ws / 2 ^ 62) mod 2 ^ 4 = 3 /\ encode [3] = Some [3] /\
  62 + stream_bits [3] <= 128 /\ length ws = 2%nat /\ decode ws 1 62 <> Some [3].
Proof. exists [3 * 2 ^ 62; 0]. vm_compute. repeat split; discriminate. Qed.
Print Assumptions C16_offset_refuted.

Example C16_ex : let syms := [0; 1; 23; 2; 5; 19; 23; 22; 0; 0; 8; 23; 23] in
  Forall (fun s => s < 24) syms /\ option_map (fun ws => decode ws (length syms) 0) (encode syms) = Some (Some syms).
Proof. split; [repeat constructor|vm_compute; reflexivity]. Qed.
Example C16_ex_offset : let syms := [10; 2; 23; 0] in
  let enc := match encode syms with Some e => wval e | None => 0 end in
  let S := (2 ^ 48 - 1) + 2 ^ 48 * enc + 2 ^ (48 + stream_bits syms) in
  let ws := [S mod 2 ^ 64; S / 2 ^ 64] in
  Forall (fun w => w < 2 ^ 64) ws /\ (wval ws / 2 ^ 48) mod 2 ^ stream_bits syms = enc /\ decode ws 4 48 = Some syms.
Proof. split; [repeat constructor|]. vm_compute. auto. Qed.

(** C50: the two x values of a proof are recovered from their line point *)
Theorem C50_line_point : forall x y, y < x < 2 ^ 32 -> LinePointToSquare (tri x + y) = (x, y).
Proof. exact line_point. Qed.
Print Assumptions C50_line_point.
(** ... and every line point below 2^63 - 2^31 comes from exactly one pair *)
Theorem C50_onto : forall index, index < tri (2 ^ 32) -> exists x y, y < x < 2 ^ 32 /\ index = tri x + y /\ LinePointToSquare index = (x, y).
Proof.
  intros i H. destruct (line_point_onto i H) as (x & y & L & ->). exists x, y. split; [exact L|]. split; [reflexivity|]. now apply line_point.
Qed.
Print Assumptions C50_onto.
(** For plots with truncated x values, equal values are allowed: the pair (x, y), y <= x, is stored as the line point of
    (x + 1, y + 1), and as that of (x + 2, 0) if x = y. *)
Theorem C50_truncated : forall x y, y <= x -> x + 2 < 2 ^ 32 ->
  LinePointToSquare2 (if x =? y then tri (x + 2) else tri (x + 1) + (y + 1)) = (x, y).
Proof.
  intros x y Hyx Hx. unfold LinePointToSquare2, LinePointToSquare3. destruct (N.eqb_spec x y) as [->|Ne].
  - rewrite <- (N.add_0_r (tri (y + 2))), line_point by lia. cbn [N.eqb].
    assert (E1 : (y + 2 + 2 ^ 32 - 1) mod 2 ^ 32 = y + 1).
    { replace (y + 2 + 2 ^ 32 - 1) with (y + 1 + 1 * 2 ^ 32) by lia. rewrite N.mod_add by discriminate. apply N.mod_small. lia. }
    rewrite E1. replace (y + 1 + 2 ^ 32 - 1) with (y + 1 * 2 ^ 32) by lia. rewrite N.mod_add by discriminate.
    rewrite N.mod_small by lia. reflexivity.
  - rewrite line_point by lia. destruct (N.eqb_spec (y + 1) 0); [lia|].
    replace (x + 1 + 2 ^ 32 - 1) with (x + 1 * 2 ^ 32) by lia. replace (y + 1 + 2 ^ 32 - 1) with (y + 1 * 2 ^ 32) by lia.
    rewrite !N.mod_add by discriminate. rewrite !N.mod_small by lia. reflexivity.
Qed.
Print Assumptions C50_truncated.
Example C50_ex : LinePointToSquare (tri 4000000000 + 123456) = (4000000000, 123456) /\
  LinePointToSquare2 (tri 9) = (7, 7) /\ tri (2 ^ 32) = 2 ^ 63 - 2 ^ 31.
Proof. vm_compute. auto. Qed.
