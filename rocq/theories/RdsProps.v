(** C117: reading the storage of contracts at any height *)
Require Import List Arith NArith ZArith Bool Lia Sorted.
From Verif Require Import BytesLib OrdLib VarModel VarSpec EngineModel EngineUpper StorModel StorSpec StorProofs RdsModel RdsSpec RdsProofs.
Import List ListNotations.
Open Scope N_scope.

Lemma chain_ok U l : history_ok U l -> forall w, In w (List.concat (chain_of l)) -> write_ok U w.
Proof.
  intros H. assert (G : forall ws, In ws (chain_of l) -> In (Block ws) l).
  { clear H. induction l as [|o l IH] using rev_ind; [intros ws []|]. unfold chain_of. rewrite fold_left_app. fold (chain_of l). cbn [fold_left]. intros ws I. apply in_or_app.
    destruct o as [b|n]; cbn [chain_step] in I.
    - apply in_app_iff in I as [I|[<-|[]]]; [left; auto|right; now left].
    - left. apply IH. rewrite <- (firstn_skipn (N.to_nat n) (chain_of l)). apply in_or_app. now left. }
  intros w I. apply in_concat in I as (ws & I & IW). eapply H; eauto.
Qed.
Lemma opt_last {o : option svar} {v'} : option_map no_rc o = Some v' <-> exists v, o = Some v /\ v' = no_rc v.
Proof. destruct o as [v|]; cbn; split; [intros [= <-]; eauto|intros (w & [= <-] & ->); reflexivity|discriminate|intros (w & E & _); discriminate]. Qed.

(** ** A variable: what the last write to it up to this height wrote, and nothing if there was none; whatever was reverted. *)
Theorem C117_var : forall U l d, distinct_prefix U -> history_ok U l -> run vdb_empty l = Some d -> forall c a h, U c -> a < 2 ^ 64 ->
  exists o, read_storage_var d c a h = Some o /\
    (forall v', o = Some v' <-> exists v, last_var (until (chain_of l) h) c a v /\ v' = no_rc v) /\ (o = None <-> no_var (until (chain_of l) h) c a).
Proof.
  intros U l d DP HO R c a h HU HA. pose proof (holds_from _ _ R) as H. eexists. split; [apply (read_ex_eq U DP d _ H (chain_ok _ _ HO)); auto|]. split.
  - intros v'. rewrite opt_last. split; intros (v & A & B); exists v; (split; [apply lastv_some; exact A|exact B]).
  - rewrite <- lastv_none. destruct (lastv _ _ _); cbn; split; congruence.
Qed.
Print Assumptions C117_var.
(** ... an entry of an array or map *)
Theorem C117_entry : forall U l d, distinct_prefix U -> history_ok U l -> run vdb_empty l = Some d -> forall c a k h, U c -> a < 2 ^ 64 -> k < 2 ^ 64 ->
  exists o, read_storage_entry_var d c a k h = Some o /\
    (forall v', o = Some v' <-> exists v, last_ent (until (chain_of l) h) c a k v /\ v' = no_rc v) /\ (o = None <-> no_ent (until (chain_of l) h) c a k).
Proof.
  intros U l d DP HO R c a k h HU HA HK. pose proof (holds_from _ _ R) as H. eexists. split; [apply (read_entry_eq U DP d _ H (chain_ok _ _ HO)); auto|]. split.
  - intros v'. rewrite opt_last. split; intros (v & A & B); exists v; (split; [apply laste_some; exact A|exact B]).
  - rewrite <- laste_none. destruct (laste _ _ _ _); cbn; split; congruence.
Qed.
Print Assumptions C117_entry.
(** ** The dump: all variables from MEM_STATIC on in order of address, each once, with what they were at this height. *)
Theorem C117_dump : forall U l d, distinct_prefix U -> history_ok U l -> run vdb_empty l = Some d -> forall c h, U c ->
  exists r, dump_storage d c h = Some r /\ by_address r /\
    forall a v', In (a, v') r <-> MEM_STATIC <= a < 2 ^ 64 - 1 /\ exists v, last_var (until (chain_of l) h) c a v /\ v' = no_rc v.
Proof.
  intros U l d DP HO R c h HU. pose proof (holds_from _ _ R) as H.
  destruct (find_range_eq U DP d _ H (chain_ok _ _ HO) c MEM_STATIC (2 ^ 64 - 1) h HU) as (r & E & S & I); try reflexivity.
  exists r. split; [exact E|]. split; [exact S|]. intros a v'. rewrite I, opt_last. split; intros (A & v & B & C); (split; [exact A|]); exists v; (split; [apply lastv_some; exact B|exact C]).
Qed.
Print Assumptions C117_dump.
(** ** Entries: all that were written, in order of their number, with what they were at this height. *)
Theorem C117_entries : forall U l d, distinct_prefix U -> history_ok U l -> run vdb_empty l = Some d -> forall c a h, U c -> a < 2 ^ 64 ->
  exists r, read_storage_array d c a h = Some (map snd r) /\ by_address r /\
    forall k v', In (k, v') r <-> exists v, last_ent (until (chain_of l) h) c a k v /\ v' = no_rc v.
Proof.
  intros U l d DP HO R c a h HU HA. pose proof (holds_from _ _ R) as H.
  destruct (find_entries_eq U DP d _ H (chain_ok _ _ HO) c a h HU HA) as (r & E & S & I).
  exists r. unfold read_storage_array, read_array. rewrite E. split; [reflexivity|]. split; [exact S|]. intros k v'. rewrite I, opt_last. split.
  - intros (A & v & B & C). exists v. split; [apply laste_some; exact B|exact C].
  - intros (v & B & C). split; [|exists v; split; [apply laste_some; exact B|exact C]].
    destruct B as (l1 & l2 & E2 & _). assert (OK : write_ok U (WEnt c a k v)).
    { apply (chain_ok _ _ HO). apply (until_in (chain_of l) h). rewrite E2. apply in_or_app. right. now left. }
    now destruct OK as (_ & _ & X & _).
Qed.
Print Assumptions C117_entries.
Lemma sorted_range {T} : forall (r : list (N * T)) m n, by_address r -> (forall k, In k (map fst r) <-> m <= k < m + N.of_nat n) -> map fst r = map (fun i => m + N.of_nat i) (seq 0 n).
Proof.
  intros r m n. revert r m. induction n as [|n IH]; intros r m S I.
  - destruct r as [|(k, x) r]; [reflexivity|]. destruct (proj1 (I k)) as (A & B); [now left|]. lia.
  - destruct r as [|(k, x) r]; [destruct (proj2 (I m)) as []; lia|]. inversion S as [|? ? S' F]; subst. rewrite Forall_forall in F.
    assert (F' : forall k', In k' (map fst r) -> k < k') by (intros k' J; apply in_map_iff in J as (z & <- & J); apply (F z J)).
    assert (k = m). { destruct (proj1 (I k)) as (A & B); [now left|]. destruct (proj2 (I m)) as [E|J]; [lia|exact E|]. apply F' in J. cbn in J. lia. }
    subst k. cbn [map fst seq]. rewrite N.add_0_r. f_equal. rewrite <- seq_shift, map_map. rewrite (IH r (m + 1) S').
    + apply map_ext. intros i. lia.
    + intros k. split.
      * intros J. pose proof (F' k J). destruct (proj1 (I k)) as (A & B); [now right|]. lia.
      * intros J. destruct (proj2 (I k)) as [E|J']; [lia| |exact J']. cbn in E. lia.
Qed.
(** ** An array of which nothing was ever taken away: its elements at this height, in order. *)
Theorem C117_array : forall U l d, distinct_prefix U -> history_ok U l -> run vdb_empty l = Some d -> forall c a h n, U c -> a < 2 ^ 64 ->
  (forall k, k < N.of_nat n -> exists v, last_ent (until (chain_of l) h) c a k v) -> (forall k, N.of_nat n <= k -> no_ent (until (chain_of l) h) c a k) ->
  exists r, read_storage_array d c a h = Some r /\ length r = n /\ forall i v, (i < n)%nat -> last_ent (until (chain_of l) h) c a (N.of_nat i) v -> nth_error r i = Some (no_rc v).
Proof.
  intros U l d DP HO R c a h n HU HA IN OUT. destruct (C117_entries U l d DP HO R c a h HU HA) as (r & E & S & I).
  assert (M : map fst r = map (fun i => 0 + N.of_nat i) (seq 0 n)).
  { apply sorted_range; auto. intros k. split.
    - intros J. apply in_map_iff in J as ((k', v') & <- & J). apply I in J as (v & (l1 & l2 & EU & _) & _). split; [lia|]. cbn [fst]. destruct (N.lt_ge_cases k' (N.of_nat n)) as [L|L]; [lia|].
      exfalso. apply (OUT k' L v). rewrite EU. apply in_or_app. right. now left.
    - intros (_ & L). destruct (IN k ltac:(lia)) as (v & V). apply (in_map fst r (k, no_rc v)). apply I. eauto. }
  exists (map snd r). split; [exact E|]. split; [rewrite map_length, <- (map_length fst), M, map_length, seq_length; reflexivity|].
  intros i v L V. assert (X : In (N.of_nat i, no_rc v) r) by (apply I; eauto).
  apply In_nth_error in X as (j & X). assert (Y : nth_error (map fst r) j = Some (N.of_nat i)) by (erewrite map_nth_error; [|exact X]; reflexivity).
  assert (j < n)%nat. { rewrite <- (seq_length n 0), <- (map_length (fun i => 0 + N.of_nat i)), <- M, map_length. apply nth_error_Some. congruence. }
  rewrite M, (map_nth_error _ j (seq 0 n) (d := j)) in Y. 2: { rewrite (nth_error_nth' _ 0%nat) by (now rewrite seq_length). now rewrite seq_nth. }
  injection Y as Y. assert (j = i) by lia. subst j. rewrite (map_nth_error _ _ _ X). reflexivity.
Qed.
Print Assumptions C117_array.

(** ** Fields by name. *)
Theorem C117_field : forall U l d fields, distinct_prefix U -> history_ok U l -> run vdb_empty l = Some d -> forall c name a fs h, U c ->
  fields c = Some fs -> In (name, a) fs -> NoDup (map fst fs) -> a < 2 ^ 64 ->
  exists o, read_storage_field fields d c name h = Some (o, a) /\ forall v', o = Some v' <-> exists v, last_var (until (chain_of l) h) c a v /\ v' = no_rc v.
Proof.
  intros U l d fields DP HO R c name a fs h HU F I ND HA. destruct (C117_var U l d DP HO R c a h HU HA) as (o & E & V & _). exists o. split; [|exact V].
  unfold read_storage_field. rewrite F, (lfind_nodup addr_eqb addr_eqb_spec _ _ _ ND I), E. reflexivity.
Qed.
Print Assumptions C117_field.
Lemma until_latest ch : (length ch <= N.to_nat (2 ^ 32))%nat -> until ch LATEST = List.concat ch.
Proof. intros L. unfold until. rewrite firstn_all2; [reflexivity|]. rewrite <- N2Nat.inj_succ. replace (N.succ LATEST) with (2 ^ 32) by reflexivity. exact L. Qed.
(** read_storage: the fields as they are now, for every height that is asked for *)
Theorem C117_fields_now : forall U l d fields, distinct_prefix U -> history_ok U l -> run vdb_empty l = Some d -> (length (chain_of l) <= N.to_nat (2 ^ 32))%nat ->
  forall c fs h, U c -> fields c = Some fs -> (forall n a, In (n, a) fs -> a < 2 ^ 64) ->
  exists r, read_storage fields d c h = Some r /\
    forall n v', In (n, v') r <-> exists a v, In (n, a) fs /\ last_var (List.concat (chain_of l)) c a v /\ v' = no_rc v.
Proof.
  intros U l d fields DP HO R LEN c fs h HU F AD. unfold read_storage. rewrite F. clear F. induction fs as [|(n, a) fs IH]; cbn [read_fields].
  - exists []. split; [reflexivity|]. intros n v'. split; [intros []|intros (a & v & [] & _)].
  - destruct IH as (r & E & I); [intros; apply (AD n0); now right|]. rewrite E. destruct (C117_var U l d DP HO R c a LATEST HU (AD n a (or_introl eq_refl))) as (o & EO & V & NV).
    change (read_storage_var d c a LATEST) with (read_ex d c a LATEST) in EO. rewrite EO. rewrite until_latest in V, NV by exact LEN. destruct o as [w|].
    + exists ((n, w) :: r). split; [reflexivity|]. intros n2 v2. cbn [In]. rewrite I. split.
      * intros [X|(a2 & v & J & K)]; [injection X as <- <-; destruct (proj1 (V w) eq_refl) as (v & A & B); exists a, v; auto|]. exists a2, v. auto.
      * intros (a2 & v & [X|J] & K); [|right; exists a2, v; auto]. injection X as <- <-. left. f_equal. assert (Some w = Some v2) by (apply V; exists v; auto). congruence.
    + exists r. split; [reflexivity|]. intros n2 v2. rewrite I. split; [intros (a2 & v & J & K); exists a2, v; split; [now right|exact K]|].
      intros (a2 & v & [X|J] & K); [|exists a2, v; auto]. injection X as <- <-. exfalso. destruct K as ((l1 & l2 & EU & _) & _). apply (proj1 NV eq_refl v). rewrite EU. apply in_or_app. right. now left.
Qed.
Print Assumptions C117_fields_now.

(** ** Entries of maps by key. *)
Definition last_key (ws : list write) (c : addr) (key : val) (ka : N) : Prop :=
  exists l1 l2 v, ws = l1 ++ WVar c ka v :: l2 /\ is_key v /\ sv_val v = key /\ forall a' v', In (WVar c a' v') l2 -> is_key v' -> sv_val v' <> key.
Definition lastk (ws : list write) (c : addr) (key : val) : option N :=
  fold_left (fun acc w => match w with WVar c' a' v => if addr_eqb (write_index_key c key) (write_index_key c' (sv_val v)) && f_key (sv_fl v) then Some a' else acc | _ => acc end) ws None.
Lemma lastk_snoc ws w c key : lastk (ws ++ [w]) c key = match w with WVar c' a' v => if addr_eqb (write_index_key c key) (write_index_key c' (sv_val v)) && f_key (sv_fl v) then Some a' else lastk ws c key | _ => lastk ws c key end.
Proof. unfold lastk. rewrite fold_left_app. destruct w; reflexivity. Qed.
Lemma lfind_idx ws c key : lfind addr_eqb (write_index_key c key) (rev (fm fi ws)) = option_map (le_bytes 8) (lastk ws c key).
Proof.
  induction ws as [|w ws IH] using rev_ind; [reflexivity|]. rewrite fm_app, rev_app_distr, lastk_snoc. destruct w as [c' a' v|c' a' k' v]; cbn [fm flat_map fi app rev]; [|exact IH].
  destruct (f_key (sv_fl v)); cbn [app rev lfind]; [|now rewrite andb_false_r]. rewrite andb_true_r. destruct (addr_eqb _ _); [reflexivity|exact IH].
Qed.
Lemma lastk_some U ws c key ka : distinct_prefix U -> (forall w, In w ws -> write_ok U w) -> U c -> val_ok key -> last_key ws c key ka -> lastk ws c key = Some ka.
Proof.
  intros DP OK HU HK (l1 & l2 & v & -> & K & V & NO). induction l2 as [|w l2 IH] using rev_ind.
  - rewrite lastk_snoc. subst key. unfold is_key in K. rewrite K, andb_true_r. destruct (addr_eqb_spec (write_index_key c (sv_val v)) (write_index_key c (sv_val v))); congruence.
  - rewrite app_comm_cons, app_assoc, lastk_snoc.
    assert (E : lastk (l1 ++ WVar c ka v :: l2) c key = Some ka).
    { apply IH; [intros x I; apply OK; rewrite app_comm_cons, app_assoc; apply in_or_app; now left|]. intros a' v' I. apply (NO a'), in_or_app. now left. }
    destruct w as [c' a' v'|]; [|exact E]. destruct (f_key (sv_fl v')) eqn:FK; [|now rewrite andb_false_r]. rewrite andb_true_r.
    assert (OW : write_ok U (WVar c' a' v')) by (apply OK; apply in_or_app; right; right; apply in_or_app; right; now left). destruct OW as (HU' & _ & _ & HV').
    destruct (addr_eqb (write_index_key c key) (write_index_key c' (sv_val v'))) eqn:A; [|exact E]. apply (index_key_eq U DP) in A as (E1 & E2); auto.
    exfalso. rewrite <- E1 in *. apply (NO a' v'); auto. apply in_or_app. right. now left.
Qed.
Theorem C117_by_key : forall U l d fields, distinct_prefix U -> history_ok U l -> run vdb_empty l = Some d -> (length (chain_of l) <= N.to_nat (2 ^ 32))%nat ->
  forall c name fa fs h key ka var, U c -> fields c = Some fs -> In (name, fa) fs -> NoDup (map fst fs) -> fa < 2 ^ 64 -> val_ok key ->
  last_var (until (chain_of l) h) c fa var -> last_key (List.concat (chain_of l)) c key ka ->
  let address := match sv_val var with VRef r => r | _ => fa end in
  exists o, read_storage_entry_by fields d c name key h = Some (o, address, ka) /\
    forall v', o = Some v' <-> exists v, last_ent (until (chain_of l) h) c address ka v /\ v' = no_rc v.
Proof.
  intros U l d fields DP HO R LEN c name fa fs h key ka var HU F I ND HA HK LV LK address.
  destruct (C117_field U l d fields DP HO R c name fa fs h HU F I ND HA) as (fo & EF & VF). pose proof (proj2 (VF (no_rc var)) (ex_intro _ var (conj LV eq_refl))) as ->.
  pose proof (chain_ok _ _ HO) as OK.
  assert (KA : 0 < ka < 2 ^ 64). { destruct LK as (l1 & l2 & v & E & _). assert (X : write_ok U (WVar c ka v)) by (apply OK; rewrite E; apply in_or_app; right; now left). now destruct X as (_ & X & _). }
  assert (AD : address < 2 ^ 64).
  { unfold address. destruct (sv_val var) eqn:SV; auto. destruct LV as (l1 & l2 & E & _). assert (X : write_ok U (WVar c fa var)) by (apply OK, (until_in (chain_of l) h); rewrite E; apply in_or_app; right; now left).
    destruct X as (_ & _ & _ & X). rewrite SV in X. exact X. }
  destruct (C117_entry U l d DP HO R c address ka h HU AD (proj2 KA)) as (o & EO & VO & _). exists o. split; [|exact VO].
  unfold read_storage_entry_by. rewrite EF. change (sv_val (no_rc var)) with (sv_val var). fold address.
  assert (LU : lookup d c key = ka).
  { unfold lookup. rewrite (h_idx _ _ (holds_from _ _ R)), vfind_rows, until_latest, lfind_idx by exact LEN. rewrite (lastk_some U _ c key ka DP OK HU HK LK). cbn [option_map].
    rewrite firstn_all2 by (now rewrite le_length). rewrite of_le_le. apply N.mod_small. exact (proj2 KA). }
  rewrite LU. destruct (N.eqb_spec ka 0); [lia|]. rewrite EO. reflexivity.
Qed.
Print Assumptions C117_by_key.

(** ** Maps: all entries at this height with the values of their keys.  Keys are read as they are now. *)
Section MAP.
  Variable fields : addr -> option (list (bytes * N)).
  Variable constants : addr -> N -> option val.
  Variables gas_limit load_gas : N.
  (** the value of a key: a constant of the binary, or a variable that exists *)
  Definition key_is (ws : list write) (c : addr) (k : N) (x : val) : Prop :=
    constants c k = Some x \/ (constants c k = None /\ MEM_STATIC <= k /\ exists v, last_var ws c k v /\ f_deleted (sv_fl v) = false /\ sv_val v = x).
  Lemma key_value_eq U l d c gas k g x : distinct_prefix U -> history_ok U l -> run vdb_empty l = Some d -> (length (chain_of l) <= N.to_nat (2 ^ 32))%nat -> U c -> k < 2 ^ 64 ->
    key_value constants gas_limit d c gas k = Some (g, x) -> forall y, x = Some y <-> key_is (List.concat (chain_of l)) c k y.
  Proof.
    intros DP HO R LEN HU HK E y. unfold key_value in E. unfold key_is. destruct (constants c k) as [z|] eqn:C.
    - injection E as <- <-. split; [intros [= ->]; now left|]. intros [[= ->]|(X & _)]; [reflexivity|discriminate].
    - destruct (N.ltb_spec k MEM_STATIC) as [L|L]; [injection E as <- <-; split; [discriminate|]; intros [X|(_ & X & _)]; [discriminate|lia]|].
      destruct (C117_var U l d DP HO R c k LATEST HU HK) as (o & EO & V & _). change (read_storage_var d c k LATEST) with (read_ex d c k LATEST) in EO. rewrite EO in E. rewrite until_latest in V by exact LEN.
      set (v := match o with Some v => if f_deleted (sv_fl v) then None else Some v | None => None end) in E. cbv zeta in E. destruct (gas_limit <? _); [discriminate|]. injection E as <- <-. split.
      + intros X. right. split; [reflexivity|]. split; [exact L|]. destruct o as [w|]; [|discriminate]. destruct (proj1 (V w) eq_refl) as (u & LU & ->). exists u. split; [exact LU|].
        unfold v in X. change (sv_fl (no_rc u)) with (sv_fl u) in X. destruct (f_deleted (sv_fl u)); [discriminate|]. injection X as <-. split; reflexivity.
      + intros [X|(_ & _ & u & LU & ND & <-)]; [discriminate|]. pose proof (proj2 (V (no_rc u)) (ex_intro _ u (conj LU eq_refl))) as ->. unfold v. change (sv_fl (no_rc u)) with (sv_fl u). rewrite ND. reflexivity.
  Qed.
  Theorem C117_map : forall U l d, distinct_prefix U -> history_ok U l -> run vdb_empty l = Some d -> (length (chain_of l) <= N.to_nat (2 ^ 32))%nat ->
    forall c a h r, U c -> a < 2 ^ 64 -> fields c <> None -> read_storage_map fields constants gas_limit load_gas d c a h = Some r ->
    forall x v', In (x, v') r <-> exists k v, key_is (List.concat (chain_of l)) c k x /\ last_ent (until (chain_of l) h) c a k v /\ v' = no_rc v.
  Proof.
    intros U l d DP HO R LEN c a h r HU HA F E x v'. unfold read_storage_map in E. destruct (fields c) as [fs|]; [clear F|congruence].
    destruct (find_entries_eq U DP d _ (holds_from _ _ R) (chain_ok _ _ HO) c a h HU HA) as (es & EE & _ & I). rewrite EE in E.
    assert (G : forall es gas r, (forall k w, In (k, w) es -> k < 2 ^ 64) -> map_entries constants gas_limit d c gas es = Some r ->
      forall x v', In (x, v') r <-> exists k, key_is (List.concat (chain_of l)) c k x /\ In (k, v') es).
    { clear - DP HO R LEN HU. induction es as [|(k, w) es IH]; intros gas r B E x v'; cbn [map_entries] in E.
      - injection E as <-. split; [intros []|intros (k & _ & [])].
      - destruct (key_value constants gas_limit d c gas k) as [(g, kv)|] eqn:KV; [|discriminate]. destruct (map_entries constants gas_limit d c g es) as [r0|] eqn:E0; [|discriminate]. injection E as <-.
        specialize (IH g r0 (fun k w I => B k w (or_intror I)) E0). pose proof (key_value_eq U l d c gas k g kv DP HO R LEN HU (B k w (or_introl eq_refl)) KV) as KI.
        assert (X : In (x, v') (match kv with Some y => (y, w) :: r0 | None => r0 end) <-> (kv = Some x /\ v' = w) \/ In (x, v') r0).
        { destruct kv as [y|]; cbn [In]; split; [intros [[= <- <-]|J]; auto|intros [([= ->] & ->)|J]; auto|auto|intros [(X & _)|J]; [discriminate|auto]]. }
        rewrite X, IH. split.
        + intros [(K & ->)|(k2 & K & J)]; [exists k; split; [now apply KI|now left]|exists k2; split; [exact K|now right]].
        + intros (k2 & K & [[= -> ->]|J]); [left; split; [now apply KI|reflexivity]|right; exists k2; auto]. }
    rewrite (G es load_gas r (fun k w J => proj1 (proj1 (I k w) J)) E x v'). split.
    - intros (k & K & J). apply I in J as (_ & J). apply opt_last in J as (v & J & ->). exists k, v. split; [exact K|]. split; [now apply laste_some|reflexivity].
    - intros (k & v & K & J & ->). exists k. split; [exact K|]. apply I. split; [|apply opt_last; exists v; split; [now apply laste_some|reflexivity]].
      destruct J as (l1 & l2 & EU & _). assert (OW : write_ok U (WEnt c a k v)). { apply (chain_ok _ _ HO), (until_in (chain_of l) h). rewrite EU. apply in_or_app. right. now left. }
      now destruct OW as (_ & _ & X & _).
  Qed.
  (** ** A map with too many keys in storage cannot be read: the engine that reads the keys has the gas of one transaction. *)
  Theorem C117_map_limit_refuted : forall U l d, distinct_prefix U -> history_ok U l -> run vdb_empty l = Some d ->
    forall c a h es, U c -> a < 2 ^ 64 -> fields c <> None -> find_entries d c a h = Some es ->
    (forall k v, In (k, v) es -> MEM_STATIC <= k /\ constants c k = None) -> gas_limit < STOR_READ_COST * N.of_nat (length es) ->
    read_storage_map fields constants gas_limit load_gas d c a h = None.
  Proof.
    intros U l d DP HO R c a h es HU HA F EE K L. unfold read_storage_map. destruct (fields c); [clear F|congruence]. rewrite EE.
    assert (G : forall es gas r, (forall k v, In (k, v) es -> MEM_STATIC <= k /\ constants c k = None) -> gas <= gas_limit -> map_entries constants gas_limit d c gas es = Some r -> gas + STOR_READ_COST * N.of_nat (length es) <= gas_limit).
    { clear. induction es as [|(k, w) es IH]; intros gas r K L E; cbn [map_entries length] in *; [lia|]. destruct (K k w (or_introl eq_refl)) as (B & C).
      destruct (key_value constants gas_limit d c gas k) as [(g, kv)|] eqn:KV; [|discriminate]. destruct (map_entries constants gas_limit d c g es) as [r0|] eqn:E0; [|discriminate].
      unfold key_value in KV. rewrite C in KV. destruct (N.ltb_spec k MEM_STATIC); [lia|]. destruct (read_ex d c k LATEST) as [o|]; [|discriminate]. cbv zeta in KV.
      revert KV. generalize (match match o with Some v => if f_deleted (sv_fl v) then None else Some v | None => None end with Some v => val_bytes (sv_val v) | None => 0 end / 32 * STOR_READ_32_BYTE_COST). intros x KV.
      destruct (N.ltb_spec gas_limit (gas + STOR_READ_COST + x)) as [|L2]; [discriminate|]. injection KV as <- _.
      specialize (IH _ r0 (fun k w I => K k w (or_intror I)) L2 E0). lia. }
    destruct (map_entries constants gas_limit d c load_gas es) as [r|] eqn:E; [|reflexivity]. exfalso.
    destruct (N.le_gt_cases load_gas gas_limit) as [LG|LG]; [specialize (G es load_gas r K LG E); lia|].
    destruct es as [|(k, w) es]; [cbn in L; lia|]. cbn [map_entries] in E. destruct (K k w (or_introl eq_refl)) as (B & C).
    destruct (key_value constants gas_limit d c load_gas k) as [(g, kv)|] eqn:KV; [|discriminate]. unfold key_value in KV. rewrite C in KV. destruct (N.ltb_spec k MEM_STATIC); [lia|].
    destruct (read_ex d c k LATEST) as [o|]; [|discriminate]. cbv zeta in KV. revert KV. generalize (match match o with Some v => if f_deleted (sv_fl v) then None else Some v | None => None end with Some v => val_bytes (sv_val v) | None => 0 end / 32 * STOR_READ_32_BYTE_COST). intros x KV.
    destruct (N.ltb_spec gas_limit (load_gas + STOR_READ_COST + x)); [discriminate|lia].
  Qed.
End MAP.
Print Assumptions C117_map.
Print Assumptions C117_map_limit_refuted.

(** ** Erased variables are not hidden: an element that was taken from an array, or an entry that was deleted from a map, is in the answer. *)
Theorem C117_erased_refuted : forall U l d, distinct_prefix U -> history_ok U l -> run vdb_empty l = Some d -> forall c a k h v, U c -> a < 2 ^ 64 ->
  last_ent (until (chain_of l) h) c a k v -> f_deleted (sv_fl v) = true -> exists r, read_storage_array d c a h = Some r /\ In (no_rc v) r.
Proof.
  intros U l d DP HO R c a k h v HU HA L _. destruct (C117_entries U l d DP HO R c a h HU HA) as (r & E & _ & I). exists (map snd r). split; [exact E|].
  apply (in_map snd r (k, no_rc v)). apply I. eauto.
Qed.
Print Assumptions C117_erased_refuted.

(** ** Cases: an array of two elements from which the second is taken, a field that changes, a block that is reverted, a map *)
Definition c1 : addr := repeat 1 32.
Definition c2 : addr := repeat 2 32.
Definition U0 (c : addr) : Prop := c = c1 \/ c = c2.
Definition var (x : val) : svar := mk_svar 1 (mk_fl false false true false false) x.
Definition key (x : val) : svar := mk_svar 1 (mk_fl false true true false true) x.
Definition gone : svar := mk_svar 0 (mk_fl true false true true false) VNil.
Definition S0 := MEM_STATIC.
Definition hist : list op := [
  Block [WVar c1 S0 (var (VUint 7)); WVar c1 (S0 + 1) (var (VArray (S0 + 1) 2)); WEnt c1 (S0 + 1) 0 (var (VUint 5)); WEnt c1 (S0 + 1) 1 (var (VUint 6)); WVar c2 S0 (var (VUint 99))];
  Block [WVar c1 S0 (var (VUint 1000))]; Revert 1;
  Block [WVar c1 S0 (var (VUint 8)); WVar c1 (S0 + 1) (var (VArray (S0 + 1) 1)); WEnt c1 (S0 + 1) 1 gone; WVar c1 (S0 + 2) (var (VMap (S0 + 2))); WVar c1 (S0 + 9) (key (VBinary [3])); WEnt c1 (S0 + 2) (S0 + 9) (var VTrue)]].
Definition fields0 (c : addr) : option (list (bytes * N)) := Some [([97], S0); ([98], S0 + 1); ([109], S0 + 2)].
Definition vals (r : option (list svar)) := option_map (map sv_val) r.
Example C117_case : exists d, run vdb_empty hist = Some d /\
  option_map (option_map sv_val) (read_storage_var d c1 S0 0) = Some (Some (VUint 7)) /\ option_map (option_map sv_val) (read_storage_var d c1 S0 1) = Some (Some (VUint 8)) /\
  option_map (option_map sv_val) (read_storage_var d c1 S0 LATEST) = Some (Some (VUint 8)) /\
  vals (read_storage_array d c1 (S0 + 1) 0) = Some [VUint 5; VUint 6] /\
  (* the array has one element *)
  option_map (option_map sv_val) (read_storage_var d c1 (S0 + 1) 1) = Some (Some (VArray (S0 + 1) 1)) /\ vals (read_storage_array d c1 (S0 + 1) 1) = Some [VUint 5; VNil] /\
  option_map (map fst) (dump_storage d c1 0) = Some [S0; S0 + 1] /\ option_map (map fst) (dump_storage d c1 1) = Some [S0; S0 + 1; S0 + 2; S0 + 9] /\
  option_map (map (fun e => (fst e, sv_val (snd e)))) (read_storage_map fields0 (fun _ _ => None) 10000 0 d c1 (S0 + 2) 1) = Some [(VBinary [3], VTrue)] /\
  read_storage_map fields0 (fun _ _ => None) 1999 0 d c1 (S0 + 2) 1 = None /\
  option_map (fun x => (option_map sv_val (fst (fst x)), snd (fst x), snd x)) (read_storage_entry_by fields0 d c1 [109] (VBinary [3]) 1) = Some (Some VTrue, S0 + 2, S0 + 9).
Proof. eexists. split; [reflexivity|]. vm_compute. auto 20. Qed.
(** ** read_storage does not look at the height. *)
Theorem C117_height_refuted : exists d, run vdb_empty hist = Some d /\
  option_map (fun x => option_map sv_val (fst x)) (read_storage_field fields0 d c1 [97] 0) = Some (Some (VUint 7)) /\
  option_map (map (fun e => (fst e, sv_val (snd e)))) (read_storage fields0 d c1 0) = Some [([97], VUint 8); ([98], VArray (S0 + 1) 1); ([109], VMap (S0 + 2))].
Proof. eexists. split; [reflexivity|]. vm_compute. auto. Qed.
Print Assumptions C117_height_refuted.
Example C117_case_ok : distinct_prefix U0 /\ history_ok U0 hist /\ last_ent (until (chain_of hist) 1) c1 (S0 + 1) 1 gone /\ f_deleted (sv_fl gone) = true /\
  last_key (List.concat (chain_of hist)) c1 (VBinary [3]) (S0 + 9) /\ (length (chain_of hist) <= N.to_nat (2 ^ 32))%nat.
Proof.
  split; [split; [intros c [->| ->]; reflexivity|intros c c' [->| ->] [->| ->]; try reflexivity; intros E; discriminate E]|]. split.
  { intros ws w I J. assert (V : forall x, val_ok x -> svar_ok (var x) /\ svar_ok (key x)) by (intros x X; repeat split; auto; reflexivity).
    assert (G : svar_ok gone) by (split; [reflexivity|exact Logic.I]).
    cbn in I. repeat (destruct I as [I|I]; [try discriminate I; injection I as <-; cbn in J;
      repeat (destruct J as [J|J]; [subst w; cbn [write_ok]; unfold U0, svar_ok, S0; cbn; repeat split; auto; try lia; repeat constructor|]); destruct J|]). destruct I. }
  split.
  { exists (firstn 7 (until (chain_of hist) 1)), (skipn 8 (until (chain_of hist) 1)). split; [reflexivity|]. cbn. intros v' [E|[E|[E|[]]]]; discriminate E. }
  split; [reflexivity|]. split.
  { exists (firstn 9 (List.concat (chain_of hist))), [WEnt c1 (S0 + 2) (S0 + 9) (var VTrue)], (key (VBinary [3])). split; [reflexivity|]. split; [reflexivity|]. split; [reflexivity|]. intros a' v' [E|[]]; discriminate E. }
  change (length (chain_of hist)) with 2%nat. change 2%nat with (N.to_nat 2). apply Nat.compare_le_iff. rewrite <- N2Nat.inj_compare. discriminate.
Qed.
