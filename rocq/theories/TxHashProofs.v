Require Import List Arith NArith ZArith Lia Bool String.
From Verif Require Import BytesLib TxHashModel TxHashSpec.
Import ListNotations.
Open Scope N_scope.

(** [w] is a prefix code: what was written can be told apart whatever follows *)
Definition pf {A} (P : A -> Prop) (w : A -> bytes) : Prop :=
  forall a b x y, P a -> P b -> w a ++ x = w b ++ y -> a = b /\ x = y.

Lemma app_same : forall (c x y : bytes), c ++ x = c ++ y -> x = y.
Proof. intros. eapply app_inv_head; eauto. Qed.

Lemma pf_u64 : pf u64 w_u64.
Proof.
  intros a b x y Ha Hb H. apply app_len_inj in H; [|unfold w_u64; now rewrite !le_length]. destruct H as [H ->].
  split; [|easy]. eapply (le_inj 8); eauto.
Qed.
Lemma pf_i64 : pf i64 w_i64.
Proof.
  intros a b x y Ha Hb H. apply app_len_inj in H; [|unfold w_i64; now rewrite !le_length]. destruct H as [H ->].
  split; [|easy]. unfold i64 in *.
  assert (B : forall z, (0 <= z mod 2 ^ 64 < 2 ^ 64)%Z) by (intros; apply Z.mod_pos_bound; reflexivity).
  assert (C : forall z, Z.to_N (z mod 2 ^ 64) < 256 ^ N.of_nat 8).
  { intros z. specialize (B z). apply N2Z.inj_lt. rewrite Z2N.id by lia. change (Z.of_N (256 ^ N.of_nat 8)) with (2 ^ 64)%Z. lia. }
  apply (le_inj 8) in H; auto. apply Z2N.inj in H; try apply B.
  assert (E : forall z, (- 2 ^ 63 <= z < 2 ^ 63)%Z -> (z mod 2 ^ 64 = if z <? 0 then z + 2 ^ 64 else z)%Z).
  { intros z Hz. destruct (Z.ltb_spec z 0).
    - rewrite <- (Z_mod_plus_full z 1). rewrite Z.mod_small; lia.
    - rewrite Z.mod_small; lia. }
  rewrite (E a Ha), (E b Hb) in H. destruct (Z.ltb_spec a 0), (Z.ltb_spec b 0); lia.
Qed.
Lemma pf_u128 : pf (fun x => x < 2 ^ 128) w_u128.
Proof.
  intros a b x y Ha Hb H. unfold w_u128 in H. rewrite <- !app_assoc in H.
  apply pf_u64 in H; [|apply N.mod_lt; discriminate|apply N.mod_lt; discriminate]. destruct H as [M H].
  assert (D : forall z, z < 2 ^ 128 -> u64 (z / 2 ^ 64)).
  { intros z Hz. apply N.div_lt_upper_bound; [discriminate|]. exact Hz. }
  apply pf_u64 in H; [|now apply D|now apply D]. destruct H as [Q ->]. split; [|easy].
  rewrite (N.div_mod a (2 ^ 64)), (N.div_mod b (2 ^ 64)) by discriminate. now rewrite M, Q.
Qed.
Lemma pf_bool : pf (fun _ => True) w_bool.
Proof. intros [] [] x y _ _ H; cbn in H; injection H; intros; subst; try discriminate; auto. Qed.
Lemma pf_string : pf len_ok w_string.
Proof.
  intros a b x y Ha Hb H. unfold w_string in H. rewrite <- !app_assoc in H. apply app_same in H.
  apply pf_u64 in H; [|exact Ha|exact Hb]. destruct H as [L H]. apply app_len_inj in H; [exact H|lia].
Qed.
Lemma pf_bytes : pf len_ok w_bytes.
Proof.
  intros a b x y Ha Hb H. unfold w_bytes in H. rewrite <- !app_assoc in H. apply app_same in H.
  apply pf_u64 in H; [|exact Ha|exact Hb]. destruct H as [L H]. apply app_len_inj in H; [exact H|lia].
Qed.
Lemma pf_optional : forall A (P : A -> Prop) w, pf P w -> pf (opt_ok P) (w_optional w).
Proof.
  intros A P w W a b x y Ha Hb H. unfold w_optional in H. rewrite <- !app_assoc in H. apply app_same in H.
  destruct a, b; cbn [opt_ok] in *; try (rewrite <- !app_assoc in H); apply pf_bool in H; auto; destruct H as [E H]; try discriminate.
  - apply W in H; auto. destruct H as [-> ->]. auto.
  - auto.
Qed.
Lemma pf_pair : forall A B (P : A -> Prop) (Q : B -> Prop) w v, pf P w -> pf Q v -> pf (pair_ok P Q) (w_pair w v).
Proof.
  intros A B P Q w v W V [a1 a2] [b1 b2] x y [A1 A2] [B1 B2] H. unfold w_pair in H. rewrite <- !app_assoc in H. apply app_same in H.
  cbn [fst snd] in *. apply W in H; auto. destruct H as [-> H]. apply V in H; auto. destruct H as [-> ->]. auto.
Qed.
Lemma pf_flat : forall A (w : A -> bytes) l m x y,
  (forall a, In a l -> forall b x y, In b m -> w a ++ x = w b ++ y -> a = b /\ x = y) ->
  List.length l = List.length m -> flat_map w l ++ x = flat_map w m ++ y -> l = m /\ x = y.
Proof.
  intros A w l. induction l as [|a l IH]; intros [|b m] x y F L H; try discriminate; [auto|]. cbn [flat_map] in H.
  rewrite <- !app_assoc in H. apply F in H; [|now left|now left]. destruct H as [-> H].
  apply IH in H; [destruct H as [-> ->]; auto| |now injection L].
  intros a' Ia b' x' y' Ib. apply F; now right.
Qed.
Lemma pf_vector : forall A (P : A -> Prop) w, pf P w -> pf (list_ok P) (w_vector w).
Proof.
  intros A P w W a b x y [La Fa] [Lb Fb] H. unfold w_vector in H. rewrite <- !app_assoc in H. apply app_same in H.
  apply pf_u64 in H; auto. destruct H as [L H]. apply pf_flat in H; [exact H| |lia].
  intros p Ip q x' y' Iq. rewrite Forall_forall in Fa, Fb. apply W; auto.
Qed.
Lemma pf_field : forall A n (P : A -> Prop) w, pf P w -> pf P (w_field n w).
Proof.
  intros A n P w W a b x y Ha Hb H. unfold w_field in H. rewrite <- !app_assoc in H. do 2 apply app_same in H. now apply W in H.
Qed.

Section JSON_IND.
  Variable P : json -> Prop.
  Hypothesis h_null : P JNull.
  Hypothesis h_bool : forall b, P (JBool b).
  Hypothesis h_u : forall x, P (JULong x).
  Hypothesis h_i : forall x, P (JLong x).
  Hypothesis h_s : forall x, P (JString x).
  Hypothesis h_a : forall l, Forall P l -> P (JArray l).
  Hypothesis h_o : forall l, Forall (fun f => P (snd f)) l -> P (JObject l).
  Hypothesis h_x : forall x, P (JOther x).
  Fixpoint json_ind' (v : json) : P v :=
    match v with
    | JNull => h_null | JBool b => h_bool b | JULong x => h_u x | JLong x => h_i x | JString x => h_s x
    | JArray l => h_a l ((fix go l := match l return Forall P l with
                          | [] => Forall_nil _ | a :: l => Forall_cons a (json_ind' a) (go l) end) l)
    | JObject l => h_o l ((fix go l := match l return Forall (fun f => P (snd f)) l with
                           | [] => Forall_nil _ | a :: l => Forall_cons a (json_ind' (snd a)) (go l) end) l)
    | JOther x => h_x x
    end.
End JSON_IND.

Ltac tags H := unfold w_string, w_bytes in H;
  repeat match type of H with context [cstr ?s] => let v := eval vm_compute in (cstr s) in change (cstr s) with v in H end;
  cbn [app] in H.

(** the part of the encoding behind the preface *)
Definition w_body (ver : N) (v : json) : bytes :=
  match v with
  | JNull => cstr "NULL"
  | JBool b => cstr "<bool>" ++ w_bool b
  | JULong x => cstr "<u64>" ++ w_u64 x
  | JLong x => cstr "<i64>" ++ w_i64 x
  | JString s => w_string s
  | JArray l => cstr "vector<>" ++ w_u64 (N.of_nat (List.length l)) ++ flat_map (w_variant ver) l
  | JObject l => cstr "object<>" ++ cstr "vector<>" ++ w_u64 (N.of_nat (List.length l))
                 ++ flat_map (fun f => cstr "pair<>" ++ w_string (fst f) ++ w_variant ver (snd f)) l
  | JOther d => w_bytes d
  end.
Lemma w_variant_body : forall ver v, 1 <= ver ->
  w_variant ver v = (if is_json v then [] else cstr "variant<>") ++ w_body ver v.
Proof.
  intros ver v H. apply N.leb_le in H.
  destruct v; cbn [w_variant w_body]; rewrite H; cbn [andb];
    match goal with |- context [is_json ?j] => destruct (is_json j) end; reflexivity.
Qed.

Lemma pf_variant_at : forall ver, 1 <= ver -> forall a b x y, json_ok a -> json_ok b ->
  w_variant ver a ++ x = w_variant ver b ++ y -> a = b /\ x = y.
Proof.
  intros ver V a. induction a as [|p|p|p|s|l IH|l IH|d] using json_ind'; intros b x y Ha Hb H;
    rewrite !w_variant_body in H by exact V.
  all: match type of H with ((if ?p then _ else _) ++ _) ++ _ = ((if ?q then _ else _) ++ _) ++ _ =>
         assert (D : p = q); [
           destruct p eqn:E1, q eqn:E2; try reflexivity; exfalso;
           destruct b; cbn [is_json] in E1, E2; try discriminate E1; try discriminate E2;
           rewrite <- ?app_assoc in H; cbn [w_body] in H; tags H; discriminate H
         | rewrite D in H; clear D; rewrite <- !app_assoc in H; apply app_same in H ] end.
  - destruct b; cbn [w_body] in H; tags H; try discriminate H. injection H as ->. auto.
  - destruct b as [|q| | | | | |]; cbn [w_body] in H; try (tags H; discriminate H).
    rewrite <- !app_assoc in H. apply app_same in H. apply (pf_bool p q) in H; auto. destruct H as [-> ->]. auto.
  - destruct b as [| |q| | | | |]; cbn [w_body] in H; try (tags H; discriminate H).
    rewrite <- !app_assoc in H. apply app_same in H. inversion Ha; inversion Hb; subst. apply (pf_u64 p q) in H; auto. destruct H as [-> ->]. auto.
  - destruct b as [| | |q| | | |]; cbn [w_body] in H; try (tags H; discriminate H).
    rewrite <- !app_assoc in H. apply app_same in H. inversion Ha; inversion Hb; subst. apply (pf_i64 p q) in H; auto. destruct H as [-> ->]. auto.
  - destruct b as [| | | |q| | |]; cbn [w_body] in H; try (tags H; discriminate H).
    inversion Ha; inversion Hb; subst. apply pf_string in H; auto. destruct H as [-> ->]. auto.
  - destruct b as [| | | | |m| |]; cbn [w_body] in H; try (tags H; discriminate H).
    inversion Ha; inversion Hb; subst. rewrite <- !app_assoc in H. apply app_same in H.
    apply pf_u64 in H; auto. destruct H as [L H]. apply pf_flat in H; [destruct H as [-> ->]; auto| |lia].
    intros p Ip q x' y' Iq. rewrite Forall_forall in *. apply IH; auto.
  - destruct b as [| | | | | |m|]; cbn [w_body] in H; try (tags H; discriminate H).
    inversion Ha; inversion Hb; subst. rewrite <- !app_assoc in H. do 2 apply app_same in H.
    apply pf_u64 in H; auto. destruct H as [L H]. apply pf_flat in H; [destruct H as [-> ->]; auto| |lia].
    intros [p1 p2] Ip [q1 q2] x' y' Iq Hpq. rewrite Forall_forall in *. cbn [fst snd] in Hpq.
    match goal with F : forall z, In z l -> len_ok _ /\ _, G : forall z, In z m -> len_ok _ /\ _ |- _ =>
      destruct (F _ Ip) as [F1 F2]; destruct (G _ Iq) as [G1 G2] end.
    cbn [fst snd] in *. rewrite <- !app_assoc in Hpq. apply app_same in Hpq. apply pf_string in Hpq; auto.
    destruct Hpq as [-> Hpq]. apply (IH _ Ip) in Hpq; auto. cbn [snd] in Hpq. destruct Hpq as [-> ->]. auto.
  - destruct b as [| | | | | | |q]; cbn [w_body] in H; try (tags H; discriminate H).
    inversion Ha; inversion Hb; subst. apply pf_bytes in H; auto. destruct H as [-> ->]. auto.
Qed.
Lemma pf_variant : forall ver, 1 <= ver -> pf json_ok (w_variant ver).
Proof. intros ver V a b x y. now apply pf_variant_at. Qed.

Ltac peel L H := let E := fresh "E" in
  apply L in H; [destruct H as [E H] | try assumption; try exact I | try assumption; try exact I].

Section OPS.
  Variable th : string -> N.
  Hypothesis TH : types_distinct th.

  Lemma type_clash : forall a b x y, In a type_names -> In b type_names ->
    w_u64 (th a) ++ x = w_u64 (th b) ++ y -> a = b /\ x = y.
  Proof. intros a b x y Ia Ib H. apply pf_u64 in H; [|apply TH|apply TH]. destruct H as [E ->]. split; auto. now apply TH. Qed.
  Ltac clash H := apply type_clash in H; [destruct H as [H _]; discriminate H|simpl; tauto|simpl; tauto].

  Lemma pf_exec : forall ver, 1 <= ver -> pf exec_ok (exec_fields ver).
  Proof.
    intros ver V [a1 a2 a3 a4 a5] [b1 b2 b3 b4 b5] x y (A1 & A2 & A3 & A4 & A5) (B1 & B2 & B3 & B4 & B5) H.
    unfold exec_fields in H. cbn [x_version x_address x_method x_args x_user] in *. rewrite <- !app_assoc in H.
    peel (pf_field _ "version" _ _ pf_u64) H. peel (pf_field _ "address" _ _ pf_bytes) H.
    peel (pf_field _ "method" _ _ pf_string) H. peel (pf_field _ "args" _ _ (pf_vector _ _ _ (pf_variant ver V))) H.
    peel (pf_field _ "user" _ _ (pf_optional _ _ _ pf_bytes)) H. subst. auto.
  Qed.
  Lemma pf_op : forall ver, 1 <= ver -> pf op_ok (op_bytes th ver).
  Proof.
    intros ver V [e|e c n] [f|f d m] x y Ha Hb H; cbn [op_bytes op_ok] in *; rewrite <- !app_assoc in H;
      try (clash H).
    - apply app_same in H. peel (pf_exec ver V) H. subst. auto.
    - destruct Ha as (A1 & A2 & A3), Hb as (B1 & B2 & B3). apply app_same in H. peel (pf_exec ver V) H.
      peel (pf_field _ "currency" _ _ pf_bytes) H. peel (pf_field _ "amount" _ _ pf_u128) H. subst. auto.
  Qed.

  Lemma pf_flags : pf flags_ok w_flags.
  Proof.
    intros [a1 a2 a3] [b1 b2 b3] x y [A1 A2] [B1 B2] H. unfold w_flags in H. cbn [f_verbose f_opt f_catch] in *.
    rewrite <- !app_assoc in H. apply app_same in H. peel (pf_field _ "verbose" _ _ pf_i64) H.
    peel (pf_field _ "opt_level" _ _ pf_i64) H. peel (pf_field _ "catch_overflow" _ _ pf_bool) H. subst. auto.
  Qed.
  Lemma pf_method : pf method_ok (w_method th).
  Proof.
    intros [a1 a2 a3 a4 a5 a6 a7 a8] [b1 b2 b3 b4 b5 b6 b7 b8] x y (A1 & A2 & A3 & A4) (B1 & B2 & B3 & B4) H.
    unfold w_method in H. cbn [m_name m_info m_init m_const m_public m_payable m_entry m_args] in *.
    rewrite <- !app_assoc in H. apply app_same in H. peel (pf_field _ "name" _ _ pf_string) H.
    peel (pf_field _ "info" _ _ pf_string) H. peel (pf_field _ "is_init" _ _ pf_bool) H.
    peel (pf_field _ "is_const" _ _ pf_bool) H. peel (pf_field _ "is_public" _ _ pf_bool) H.
    peel (pf_field _ "is_payable" _ _ pf_bool) H. peel (pf_field _ "entry_point" _ _ pf_u64) H.
    peel (pf_field _ "args" _ _ (pf_vector _ _ _ pf_string)) H. subst. auto.
  Qed.
  Lemma pf_token : forall ver, 1 <= ver -> pf token_ok (token_fields ver).
  Proof.
    intros ver V [a1 a2 a3 a4 a5] [b1 b2 b3 b4 b5] x y (A1 & A2 & A3 & A4 & A5) (B1 & B2 & B3 & B4 & B5) H.
    unfold token_fields in H. cbn [t_version t_name t_symbol t_decimals t_meta] in *. rewrite <- !app_assoc in H.
    peel (pf_field _ "version" _ _ pf_u64) H. peel (pf_field _ "name" _ _ pf_string) H.
    peel (pf_field _ "symbol" _ _ pf_string) H. peel (pf_field _ "decimals" _ _ pf_i64) H.
    peel (pf_field _ "meta_data" _ _ (pf_variant ver V)) H. subst. auto.
  Qed.
  Lemma pf_contract : forall ver, 1 <= ver -> pf contract_ok (contract_bytes th ver).
  Proof.
    intros ver V a b x y Ha Hb H.
    destruct a as [a|v j|t bi ini ar de|v n o|v ad|t|v mi pa], b as [b|v' j'|t' bi' ini' ar' de'|v' n' o'|v' ad'|t'|v' mi' pa'];
      cbn [contract_bytes contract_ok] in *; rewrite <- !app_assoc in H; try (clash H); apply app_same in H.
    - destruct a as [a1 a2 a3 a4 a5 a6 a7 a8 a9 a10], b as [b1 b2 b3 b4 b5 b6 b7 b8 b9 b10].
      cbn [b_version b_name b_fields b_methods b_constant b_binary b_lines b_source b_compiler b_flags] in *.
      destruct Ha as (A1 & A2 & A3 & A4 & A5 & A6 & A7 & A8 & A9 & A10).
      destruct Hb as (B1 & B2 & B3 & B4 & B5 & B6 & B7 & B8 & B9 & B10).
      peel (pf_field _ "version" _ _ pf_u64) H. peel (pf_field _ "name" _ _ pf_string) H.
      peel (pf_field _ "fields" _ _ (pf_vector _ _ _ (pf_pair _ _ _ _ _ _ pf_string pf_u64))) H.
      peel (pf_field _ "methods" _ _ (pf_vector _ _ _ (pf_pair _ _ _ _ _ _ pf_string pf_method))) H.
      peel (pf_field _ "constant" _ _ pf_bytes) H. peel (pf_field _ "binary" _ _ pf_bytes) H.
      peel (pf_field _ "line_info" _ _ (pf_vector _ _ _ (pf_pair _ _ _ _ _ _ pf_u64 pf_u64))) H.
      peel (pf_field _ "source" _ _ pf_string) H. peel (pf_field _ "compiler" _ _ pf_string) H.
      peel (pf_field _ "build_flags" _ _ pf_flags) H. subst. auto.
    - destruct Ha as (A1 & A2), Hb as (B1 & B2). peel (pf_field _ "version" _ _ pf_u64) H.
      peel (pf_field _ "value" _ _ (pf_variant ver V)) H. subst. auto.
    - destruct Ha as (A1 & A2 & A3 & A4 & A5), Hb as (B1 & B2 & B3 & B4 & B5). peel (pf_token ver V) H.
      peel (pf_field _ "binary" _ _ pf_bytes) H. peel (pf_field _ "init_method" _ _ pf_string) H.
      peel (pf_field _ "init_args" _ _ (pf_vector _ _ _ (pf_variant ver V))) H.
      peel (pf_field _ "depends" _ _ (pf_vector _ _ _ (pf_pair _ _ _ _ _ _ pf_string pf_bytes))) H. subst. auto.
    - destruct Ha as (A1 & A2 & A3), Hb as (B1 & B2 & B3). peel (pf_field _ "version" _ _ pf_u64) H.
      peel (pf_field _ "num_required" _ _ pf_u64) H. peel (pf_field _ "owners" _ _ (pf_vector _ _ _ pf_bytes)) H. subst. auto.
    - destruct Ha as (A1 & A2), Hb as (B1 & B2). peel (pf_field _ "version" _ _ pf_u64) H.
      peel (pf_field _ "address" _ _ pf_bytes) H. subst. auto.
    - peel (pf_token ver V) H. subst. auto.
    - destruct Ha as (A1 & A2 & A3), Hb as (B1 & B2 & B3). peel (pf_field _ "version" _ _ pf_u64) H.
      peel (pf_field _ "mime_type" _ _ pf_string) H. peel (pf_field _ "payload" _ _ pf_bytes) H. subst. auto.
  Qed.

  Lemma pf_txio : forall n, pf txio_ok (w_txio n).
  Proof.
    intros n [a1 a2 a3 a4] [b1 b2 b3 b4] x y (A1 & A2 & A3 & A4) (B1 & B2 & B3 & B4) H. unfold w_txio in H.
    cbn [io_address io_contract io_amount io_memo] in *. rewrite <- !app_assoc in H. apply app_same in H.
    peel pf_bytes H. peel pf_bytes H. peel pf_u128 H. peel (pf_optional _ _ _ pf_string) H. subst. auto.
  Qed.

  Variable sha : bytes -> bytes.
  Hypothesis sha_len : forall b, List.length (sha b) = 32%nat.

  Lemma flat_hashes : forall ver l m x y, List.length l = List.length m ->
    flat_map (fun o => w_bytes (sha (op_bytes th ver o))) l ++ x = flat_map (fun o => w_bytes (sha (op_bytes th ver o))) m ++ y ->
    map (fun o => sha (op_bytes th ver o)) l = map (fun o => sha (op_bytes th ver o)) m /\ x = y.
  Proof.
    intros ver l. induction l as [|a l IH]; intros [|b m] x y L H; try discriminate; [auto|]. cbn [flat_map map] in *.
    rewrite <- !app_assoc in H. apply pf_bytes in H; [|unfold len_ok; now rewrite sha_len|unfold len_ok; now rewrite sha_len].
    destruct H as [E H]. injection L as L. apply IH in H; auto. destruct H as [F ->]. now rewrite E, F.
  Qed.

  Lemma bytes_dec : forall x y : bytes, {x = y} + {x <> y}.
  Proof. apply list_eq_dec, N.eq_dec. Qed.

  Lemma ops_bound : forall ver l m, 1 <= ver -> Forall op_ok l -> Forall op_ok m ->
    map (fun o => sha (op_bytes th ver o)) l = map (fun o => sha (op_bytes th ver o)) m ->
    l = m \/ exists x y, In x (map (op_bytes th ver) l) /\ In y (map (op_bytes th ver) m) /\ x <> y /\ sha x = sha y.
  Proof.
    intros ver l. induction l as [|a l IH]; intros [|b m] V Fl Fm H; try discriminate; [auto|]. cbn [map] in *.
    injection H as E H. destruct (IH m V (Forall_inv_tail Fl) (Forall_inv_tail Fm) H) as [->|(x & y & Ix & Iy & N & S)].
    - destruct (bytes_dec (op_bytes th ver a) (op_bytes th ver b)) as [D|D].
      + left. f_equal. pose proof (pf_op ver V a b [] [] (Forall_inv Fl) (Forall_inv Fm)) as P.
        rewrite D in P. now apply P.
      + right. exists (op_bytes th ver a), (op_bytes th ver b). simpl. auto.
    - right. exists x, y. simpl. auto.
  Qed.

  Lemma tx_bound : forall t u, tx_ok t -> tx_ok u -> 1 <= tx_version t \/ 1 <= tx_version u ->
    tx_id th sha t = tx_id th sha u -> t = u \/ hash_broken th sha t u.
  Proof.
    intros t u Ht Hu V E. unfold tx_id in E.
    destruct (bytes_dec (tx_bytes th sha t) (tx_bytes th sha u)) as [D|D].
    2:{ right. left. exists (tx_bytes th sha t), (tx_bytes th sha u). repeat split; auto; now left. }
    assert (H : tx_bytes th sha t ++ [] = tx_bytes th sha u ++ []) by now rewrite D. clear E D.
    unfold hash_broken, hashed_for. unfold tx_bytes in H. set (big1 := tx_bytes th sha t). set (big2 := tx_bytes th sha u). clearbody big1 big2.
    destruct t as [a1 a2 a3 a4 a5 a6 a7 a8 a9 a10 ops dep], u as [b1 b2 b3 b4 b5 b6 b7 b8 b9 b10 ops' dep'].
    unfold tx_ok in *. cbn [tx_version tx_expires tx_fee_ratio tx_max_fee tx_note tx_nonce tx_network tx_sender tx_inputs tx_outputs tx_execute tx_deploy] in *.
    destruct Ht as ((A1 & A2 & A3 & A4 & A5 & A6) & A7 & A8 & A9 & A10 & (A11 & A12) & A13).
    destruct Hu as ((B1 & B2 & B3 & B4 & B5 & B6) & B7 & B8 & B9 & B10 & (B11 & B12) & B13).
    rewrite <- !app_assoc in H. apply app_same in H.
    peel (pf_field _ "version" _ _ pf_u64) H. peel (pf_field _ "expires" _ _ pf_u64) H.
    peel (pf_field _ "fee_ratio" _ _ pf_u64) H. peel (pf_field _ "max_fee_amount" _ _ pf_u64) H.
    peel (pf_field _ "note" _ _ pf_u64) H. peel (pf_field _ "nonce" _ _ pf_u64) H.
    peel (pf_field _ "network" _ _ pf_string) H. peel (pf_field _ "sender" _ _ (pf_optional _ _ _ pf_bytes)) H.
    peel (pf_field _ "inputs" _ _ (pf_vector _ _ _ (pf_txio "txin_t<>"))) H.
    peel (pf_field _ "outputs" _ _ (pf_vector _ _ _ (pf_txio "txout_t<>"))) H.
    do 2 apply app_same in H. peel pf_u64 H. subst. assert (V' : 1 <= b1) by (destruct V; assumption). clear V.
    apply flat_hashes in H; [|lia]. destruct H as [M H].
    apply (pf_field _ "deploy" _ _ pf_bytes) in H.
    2:{ unfold len_ok. destruct dep; [now rewrite sha_len|reflexivity]. }
    2:{ unfold len_ok. destruct dep'; [now rewrite sha_len|reflexivity]. }
    destruct H as [H _].
    destruct (ops_bound b1 ops ops' V' A12 B12 M) as [->|(x & y & Ix & Iy & N & S)].
    2:{ right. left. exists x, y. repeat split; auto; right; apply in_or_app; now left. }
    destruct dep as [c|], dep' as [d|]; cbn [opt_ok] in *.
    - destruct (bytes_dec (contract_bytes th b1 c) (contract_bytes th b1 d)) as [D|D].
      + left. pose proof (pf_contract b1 V' c d [] [] A13 B13) as P. rewrite D in P. destruct (P eq_refl) as [-> _]. reflexivity.
      + right. left. exists (contract_bytes th b1 c), (contract_bytes th b1 d). repeat split; auto; right; apply in_or_app; right; now left.
    - right. right. exists (contract_bytes th b1 c). split; auto. apply in_or_app. left. right. apply in_or_app. right. now left.
    - right. right. exists (contract_bytes th b1 d). split; auto. apply in_or_app. right. right. apply in_or_app. right. now left.
    - left. reflexivity.
  Qed.
End OPS.
