(** C117: proofs *)
Require Import List Arith NArith ZArith Bool Lia Sorted.
From Verif Require Import BytesLib OrdLib VarModel VarSpec EngineModel EngineUpper StorModel StorSpec StorProofs RdsModel RdsSpec.
Import List ListNotations.
Open Scope N_scope.

(** ** Tables and the chain *)
Definition fm (f : write -> option (bytes * bytes)) (ws : list write) : list (bytes * bytes) :=
  flat_map (fun w => match f w with Some p => [p] | None => [] end) ws.
Definition at_ver (i : N) (p : bytes * bytes) : row := ((fst p, i), snd p).
Fixpoint rows (f : write -> option (bytes * bytes)) (i : N) (ch : chain) : list row :=
  match ch with [] => [] | b :: ch => map (at_ver i) (fm f b) ++ rows f (i + 1) ch end.
Definition ser (v : svar) : bytes := serialize (var_of_svar v) false true.
Definition fv (w : write) : option (bytes * bytes) := match w with WVar c a v => Some (get_key c a, ser v) | _ => None end.
Definition fe (w : write) : option (bytes * bytes) := match w with WEnt c a k v => Some (write_entry_key c a k, ser v) | _ => None end.
Definition fi (w : write) : option (bytes * bytes) :=
  match w with WVar c a v => if f_key (sv_fl v) then Some (write_index_key c (sv_val v), le_bytes 8 a) else None | _ => None end.

Lemma fm_app f (a b : list write) : fm f (a ++ b) = fm f a ++ fm f b.
Proof. unfold fm. apply flat_map_app. Qed.
Lemma rows_app f ch b : forall i, rows f i (ch ++ [b]) = rows f i ch ++ map (at_ver (i + N.of_nat (length ch))) (fm f b).
Proof.
  induction ch as [|x ch IH]; intros i.
  - cbn [app rows length]. rewrite app_nil_r, N.add_0_r. reflexivity.
  - cbn [app rows length]. rewrite IH, app_assoc. do 3 f_equal. lia.
Qed.
Lemma rows_before f ch : forall i n, filter (fun e => r_ver e <? i + N.of_nat n) (rows f i ch) = rows f i (firstn n ch).
Proof.
  induction ch as [|b ch IH]; intros i n; [now destruct n|]. cbn [rows]. rewrite filter_app.
  destruct n as [|n].
  - rewrite N.add_0_r. cbn [firstn rows].
    assert (Z0 : forall l i j, i <= j -> filter (fun e => r_ver e <? i) (map (at_ver j) l) = []).
    { intros l i0 j L. induction l as [|x l IHl]; [reflexivity|]. cbn. replace (j <? i0) with false by (symmetry; apply N.ltb_ge; lia). exact IHl. }
    assert (Z1 : forall ch j, i <= j -> filter (fun e => r_ver e <? i) (rows f j ch) = []).
    { clear - Z0. induction ch as [|x ch IH]; intros j L; [reflexivity|]. cbn [rows]. rewrite filter_app, Z0, IH by lia. reflexivity. }
    rewrite Z0, Z1 by lia. reflexivity.
  - cbn [firstn rows].
    assert (A : forall l, filter (fun e => r_ver e <? i + N.of_nat (S n)) (map (at_ver i) l) = map (at_ver i) l).
    { induction l as [|x l IHl]; [reflexivity|]. cbn [map filter]. unfold r_ver at 1, at_ver at 1. cbn [fst snd].
      replace (i <? i + N.of_nat (S n)) with true by (symmetry; apply N.ltb_lt; lia). now rewrite IHl. }
    rewrite A. f_equal. rewrite <- (IH (i + 1) n). apply filter_ext. intros e. f_equal. lia.
Qed.
Lemma rows_plain f ch : forall i, map (fun e => (r_key e, snd e)) (rows f i ch) = fm f (List.concat ch).
Proof.
  induction ch as [|b ch IH]; intros i; [reflexivity|]. cbn [rows List.concat]. rewrite map_app, fm_app, IH. f_equal.
  rewrite map_map. rewrite <- map_id. apply map_ext. now intros (k, v).
Qed.
Lemma filter_rev {A} (p : A -> bool) l : filter p (rev l) = rev (filter p l).
Proof. induction l as [|x l IH]; [reflexivity|]. cbn. rewrite filter_app, IH. cbn. destruct (p x); cbn; now rewrite ?app_nil_r. Qed.

Record holds (d : vdb) (ch : chain) : Prop := {
  h_ver : v_ver d = N.of_nat (length ch);
  h_tab : v_tab d = rev (rows fv 0 ch);
  h_ent : v_ent d = rev (rows fe 0 ch);
  h_idx : v_idx d = rev (rows fi 0 ch) }.
Lemma writes_tab ws : forall d, let d' := fold_left do_write ws d in v_ver d' = v_ver d /\
  v_tab d' = rev (map (at_ver (v_ver d)) (fm fv ws)) ++ v_tab d /\
  v_ent d' = rev (map (at_ver (v_ver d)) (fm fe ws)) ++ v_ent d /\
  v_idx d' = rev (map (at_ver (v_ver d)) (fm fi ws)) ++ v_idx d.
Proof.
  induction ws as [|w ws IH]; intros d; cbv zeta; [cbn; auto|]. cbn [fold_left]. destruct (IH (do_write d w)) as (A & B & C & D). cbv zeta in *.
  rewrite A, B, C, D. destruct w as [c a v|c a k v]; cbn [do_write v_ver v_tab v_ent v_idx fm flat_map fv fe fi app].
  - split; [reflexivity|]. cbn [map rev]. rewrite <- app_assoc. split; [reflexivity|]. split; [reflexivity|].
    destruct (f_key (sv_fl v)); cbn [app map rev]; [now rewrite <- app_assoc|reflexivity].
  - split; [reflexivity|]. split; [reflexivity|]. cbn [map rev]. rewrite <- app_assoc. split; reflexivity.
Qed.
Lemma holds_step d ch o d' : holds d ch -> step d o = Some d' -> holds d' (chain_step ch o).
Proof.
  intros H E. destruct o as [ws|n]; cbn [step chain_step] in *.
  - injection E as <-. destruct (writes_tab ws d) as (A & B & C & D). cbv zeta in *. destruct H as [HV HT HE HI].
    unfold apply_block. split; cbn [v_ver v_tab v_ent v_idx].
    + rewrite A, HV, app_length. cbn. lia.
    + rewrite B, HV, HT, rows_app, rev_app_distr, N.add_0_l. reflexivity.
    + rewrite C, HV, HE, rows_app, rev_app_distr, N.add_0_l. reflexivity.
    + rewrite D, HV, HI, rows_app, rev_app_distr, N.add_0_l. reflexivity.
  - unfold revert_db in E. destruct (N.ltb_spec (v_ver d) n); [discriminate|]. injection E as <-. destruct H as [HV HT HE HI].
    assert (X : forall f, before n (rev (rows f 0 ch)) = rev (rows f 0 (firstn (N.to_nat n) ch))).
    { intros f. unfold before. rewrite filter_rev. f_equal. rewrite <- (rows_before f ch 0 (N.to_nat n)). apply filter_ext. intros e. f_equal. lia. }
    split; cbn [v_ver v_tab v_ent v_idx]; rewrite ?HT, ?HE, ?HI, ?X; auto.
    rewrite firstn_length. lia.
Qed.
Lemma holds_run l : forall d ch d', holds d ch -> run d l = Some d' -> holds d' (fold_left chain_step l ch).
Proof.
  induction l as [|o l IH]; intros d ch d' H E; cbn [run fold_left] in *; [injection E as <-; exact H|].
  destruct (step d o) as [d1|] eqn:S1; [|discriminate]. eapply IH; [|exact E]. eapply holds_step; eauto.
Qed.
Lemma holds_from l d : run vdb_empty l = Some d -> holds d (chain_of l).
Proof. apply holds_run. split; reflexivity. Qed.

Lemma find_filter {A} (p q : A -> bool) l : List.find (fun x => p x && q x) l = List.find p (filter q l).
Proof. induction l as [|x l IH]; [reflexivity|]. cbn. rewrite IH. destruct (q x); cbn; destruct (p x); auto. Qed.
Lemma find_plain k (l : list row) : match List.find (fun e => addr_eqb k (r_key e)) l with Some e => Some (snd e) | None => None end
  = lfind addr_eqb k (map (fun e => (r_key e, snd e)) l).
Proof. induction l as [|e l IH]; [reflexivity|]. cbn. destruct (addr_eqb k (r_key e)); auto. Qed.
Lemma vfind_rows f ch k h : vfind (rev (rows f 0 ch)) k h = lfind addr_eqb k (rev (fm f (until ch h))).
Proof.
  unfold vfind. rewrite find_filter, filter_rev.
  assert (E : filter (fun e => r_ver e <=? h) (rows f 0 ch) = rows f 0 (firstn (S (N.to_nat h)) ch)).
  { rewrite <- (rows_before f ch 0 (S (N.to_nat h))). apply filter_ext. intros e.
    destruct (N.leb_spec (r_ver e) h), (N.ltb_spec (r_ver e) (0 + N.of_nat (S (N.to_nat h)))); auto; lia. }
  rewrite E, find_plain, map_rev, rows_plain. reflexivity.
Qed.

(** ** The last write *)
Definition lastv (ws : list write) (c : addr) (a : N) : option svar :=
  fold_left (fun acc w => match w with WVar c' a' v => if addr_eqb c c' && (a =? a') then Some v else acc | _ => acc end) ws None.
Definition laste (ws : list write) (c : addr) (a k : N) : option svar :=
  fold_left (fun acc w => match w with WEnt c' a' k' v => if addr_eqb c c' && (a =? a') && (k =? k') then Some v else acc | _ => acc end) ws None.
Lemma addr_eqb_true x y : addr_eqb x y = true <-> x = y.
Proof. destruct (addr_eqb_spec x y); split; congruence. Qed.
Lemma lastv_snoc ws w c a : lastv (ws ++ [w]) c a = match w with WVar c' a' v => if addr_eqb c c' && (a =? a') then Some v else lastv ws c a | _ => lastv ws c a end.
Proof. unfold lastv. rewrite fold_left_app. destruct w; reflexivity. Qed.
Lemma laste_snoc ws w c a k : laste (ws ++ [w]) c a k = match w with WEnt c' a' k' v => if addr_eqb c c' && (a =? a') && (k =? k') then Some v else laste ws c a k | _ => laste ws c a k end.
Proof. unfold laste. rewrite fold_left_app. destruct w; reflexivity. Qed.
Lemma lastv_none ws c a : lastv ws c a = None <-> no_var ws c a.
Proof.
  unfold no_var. induction ws as [|w ws IH] using rev_ind; [split; auto; intros _ v []|]. rewrite lastv_snoc. destruct w as [c' a' v|c' a' k' v].
  - destruct (addr_eqb c c' && (a =? a')) eqn:E.
    + apply andb_prop in E as (E1 & E2). apply addr_eqb_true in E1. apply N.eqb_eq in E2. subst. split; [discriminate|]. intros H. exfalso. apply (H v), in_or_app. right. now left.
    + rewrite IH. split; intros H v0 I; [|apply (H v0), in_or_app; now left]. apply in_app_iff in I as [I|[I|[]]]; [now apply (H v0)|]. injection I as -> -> ->.
      rewrite N.eqb_refl in E. assert (addr_eqb c c = true) by now apply addr_eqb_true. rewrite H0 in E. discriminate.
  - rewrite IH. split; intros H v0 I; [|apply (H v0), in_or_app; now left]. apply in_app_iff in I as [I|[I|[]]]; [now apply (H v0)|discriminate].
Qed.
Lemma lastv_some ws c a v : lastv ws c a = Some v <-> last_var ws c a v.
Proof.
  induction ws as [|w ws IH] using rev_ind.
  - split; [discriminate|]. intros (l1 & l2 & E & _). destruct l1; discriminate.
  - rewrite lastv_snoc.
    assert (B : (lastv ws c a = Some v) -> (forall v', w <> WVar c a v') -> last_var (ws ++ [w]) c a v).
    { intros H NE. apply IH in H as (l1 & l2 & -> & H). exists l1, (l2 ++ [w]). split; [rewrite <- app_assoc; reflexivity|]. intros v' I. apply in_app_iff in I as [I|[I|[]]]; [now apply (H v')|now apply (NE v')]. }
    assert (F : last_var (ws ++ [w]) c a v -> w = WVar c a v \/ (last_var ws c a v /\ forall v', w <> WVar c a v')).
    { intros (l1 & l2 & E & H). destruct l2 as [|z l2] using rev_ind.
      - apply app_inj_tail in E as (-> & ->). now left.
      - clear IHl2. rewrite app_comm_cons, app_assoc in E. apply app_inj_tail in E as (-> & ->). right. split.
        + exists l1, l2. split; auto. intros v' I. apply (H v'), in_or_app. now left.
        + intros v' ->. apply (H v'), in_or_app. right. now left. }
    destruct w as [c' a' v0|c' a' k' v0].
    + destruct (addr_eqb c c' && (a =? a')) eqn:E.
      * apply andb_prop in E as (E1 & E2). apply addr_eqb_true in E1. apply N.eqb_eq in E2. subst. split.
        -- intros [= ->]. exists ws, []. split; auto.
        -- intros L. destruct (F L) as [G|(_ & G)]; [now injection G as ->|]. exfalso. now apply (G v0).
      * assert (NE : forall v', WVar c' a' v0 <> WVar c a v').
        { intros v' G. injection G as -> -> ->. rewrite N.eqb_refl in E. assert (X : addr_eqb c c = true) by now apply addr_eqb_true. rewrite X in E. discriminate. }
        split; [auto|]. intros L. destruct (F L) as [G|(G & _)]; [exfalso; now apply (NE v)|]. now apply IH.
    + split; [intros H; apply B; auto; discriminate|]. intros L. destruct (F L) as [G|(G & _)]; [discriminate|]. now apply IH.
Qed.
Lemma laste_none ws c a k : laste ws c a k = None <-> no_ent ws c a k.
Proof.
  unfold no_ent. induction ws as [|w ws IH] using rev_ind; [split; auto; intros _ v []|]. rewrite laste_snoc. destruct w as [c' a' v|c' a' k' v].
  - rewrite IH. split; intros H v0 I; [|apply (H v0), in_or_app; now left]. apply in_app_iff in I as [I|[I|[]]]; [now apply (H v0)|discriminate].
  - destruct (addr_eqb c c' && (a =? a') && (k =? k')) eqn:E.
    + apply andb_prop in E as (E & E3). apply andb_prop in E as (E1 & E2). apply addr_eqb_true in E1. apply N.eqb_eq in E2, E3. subst. split; [discriminate|]. intros H. exfalso. apply (H v), in_or_app. right. now left.
    + rewrite IH. split; intros H v0 I; [|apply (H v0), in_or_app; now left]. apply in_app_iff in I as [I|[I|[]]]; [now apply (H v0)|]. injection I as -> -> -> ->.
      rewrite !N.eqb_refl in E. assert (X : addr_eqb c c = true) by now apply addr_eqb_true. rewrite X in E. discriminate.
Qed.
Lemma laste_some ws c a k v : laste ws c a k = Some v <-> last_ent ws c a k v.
Proof.
  induction ws as [|w ws IH] using rev_ind.
  - split; [discriminate|]. intros (l1 & l2 & E & _). destruct l1; discriminate.
  - rewrite laste_snoc.
    assert (B : (laste ws c a k = Some v) -> (forall v', w <> WEnt c a k v') -> last_ent (ws ++ [w]) c a k v).
    { intros H NE. apply IH in H as (l1 & l2 & -> & H). exists l1, (l2 ++ [w]). split; [rewrite <- app_assoc; reflexivity|]. intros v' I. apply in_app_iff in I as [I|[I|[]]]; [now apply (H v')|now apply (NE v')]. }
    assert (F : last_ent (ws ++ [w]) c a k v -> w = WEnt c a k v \/ (last_ent ws c a k v /\ forall v', w <> WEnt c a k v')).
    { intros (l1 & l2 & E & H). destruct l2 as [|z l2] using rev_ind.
      - apply app_inj_tail in E as (-> & ->). now left.
      - clear IHl2. rewrite app_comm_cons, app_assoc in E. apply app_inj_tail in E as (-> & ->). right. split.
        + exists l1, l2. split; auto. intros v' I. apply (H v'), in_or_app. now left.
        + intros v' ->. apply (H v'), in_or_app. right. now left. }
    destruct w as [c' a' v0|c' a' k' v0].
    + split; [intros H; apply B; auto; discriminate|]. intros L. destruct (F L) as [G|(G & _)]; [discriminate|]. now apply IH.
    + destruct (addr_eqb c c' && (a =? a') && (k =? k')) eqn:E.
      * apply andb_prop in E as (E & E3). apply andb_prop in E as (E1 & E2). apply addr_eqb_true in E1. apply N.eqb_eq in E2, E3. subst. split.
        -- intros [= ->]. exists ws, []. split; auto.
        -- intros L. destruct (F L) as [G|(_ & G)]; [now injection G as ->|]. exfalso. now apply (G v0).
      * assert (NE : forall v', WEnt c' a' k' v0 <> WEnt c a k v').
        { intros v' G. injection G as -> -> -> ->. rewrite !N.eqb_refl in E. assert (X : addr_eqb c c = true) by now apply addr_eqb_true. rewrite X in E. discriminate. }
        split; [auto|]. intros L. destruct (F L) as [G|(G & _)]; [exfalso; now apply (NE v)|]. now apply IH.
Qed.

Section U.
  Variable U : addr -> Prop.
  Variable DP : distinct_prefix U.

  Lemma lfind_var ws c a : (forall w, In w ws -> write_ok U w) -> U c -> a < 2 ^ 64 -> lfind addr_eqb (get_key c a) (rev (fm fv ws)) = option_map ser (lastv ws c a).
  Proof.
    intros OK HU HA. induction ws as [|w ws IH] using rev_ind; [reflexivity|]. rewrite fm_app, rev_app_distr, lastv_snoc.
    assert (OK' : forall w, In w ws -> write_ok U w) by (intros; apply OK, in_or_app; now left).
    assert (OW : write_ok U w) by (apply OK, in_or_app; right; now left).
    destruct w as [c' a' v|c' a' k' v]; cbn [fm flat_map fv app rev lfind]; [|now apply IH].
    destruct OW as (HU' & HA' & _). rewrite (get_key_eq U DP) by (auto; lia). destruct (addr_eqb c c' && (a =? a')); [reflexivity|now apply IH].
  Qed.
  Lemma lfind_ent ws c a k : (forall w, In w ws -> write_ok U w) -> U c -> a < 2 ^ 64 -> k < 2 ^ 64 ->
    lfind addr_eqb (write_entry_key c a k) (rev (fm fe ws)) = option_map ser (laste ws c a k).
  Proof.
    intros OK HU HA HK. induction ws as [|w ws IH] using rev_ind; [reflexivity|]. rewrite fm_app, rev_app_distr, laste_snoc.
    assert (OK' : forall w, In w ws -> write_ok U w) by (intros; apply OK, in_or_app; now left).
    assert (OW : write_ok U w) by (apply OK, in_or_app; right; now left).
    destruct w as [c' a' v|c' a' k' v]; cbn [fm flat_map fe app rev lfind]; [now apply IH|].
    destruct OW as (HU' & HA' & HK' & _). rewrite (entry_key_eq U DP) by auto. destruct (addr_eqb c c' && (a =? a') && (k =? k')); [reflexivity|now apply IH].
  Qed.
  Lemma ok_until ch h w : (forall w, In w (List.concat ch) -> write_ok U w) -> In w (until ch h) -> write_ok U w.
  Proof.
    intros OK I. apply OK. unfold until in I. rewrite <- (firstn_skipn (S (N.to_nat h)) ch), concat_app. apply in_or_app. now left.
  Qed.
  Lemma lastv_ok ws c a v : (forall w, In w ws -> write_ok U w) -> lastv ws c a = Some v -> svar_ok v.
  Proof. intros OK E. apply lastv_some in E as (l1 & l2 & -> & _). specialize (OK (WVar c a v)). destruct OK as (_ & _ & X); [apply in_or_app; right; now left|exact X]. Qed.
  Lemma laste_ok ws c a k v : (forall w, In w ws -> write_ok U w) -> laste ws c a k = Some v -> svar_ok v.
  Proof. intros OK E. apply laste_some in E as (l1 & l2 & -> & _). specialize (OK (WEnt c a k v)). destruct OK as (_ & _ & _ & X); [apply in_or_app; right; now left|exact X]. Qed.
  Lemma load_ser o : (forall v, o = Some v -> svar_ok v) -> load (option_map ser o) = Some (option_map no_rc o).
  Proof. intros OK. destruct o as [v|]; [|reflexivity]. cbn [option_map load]. unfold ser. rewrite load_serialize by auto. reflexivity. Qed.

  Section DB.
    Variables (d : vdb) (ch : chain).
    Hypothesis HO : holds d ch.
    Hypothesis OK : forall w, In w (List.concat ch) -> write_ok U w.

    Lemma read_ex_eq c a h : U c -> a < 2 ^ 64 -> read_ex d c a h = Some (option_map no_rc (lastv (until ch h) c a)).
    Proof.
      intros HU HA. assert (O' : forall w, In w (until ch h) -> write_ok U w) by (intros; eapply ok_until; eauto).
      unfold read_ex. rewrite (h_tab _ _ HO), vfind_rows, lfind_var by auto. apply load_ser. intros v E. eapply lastv_ok; eauto.
    Qed.
    Lemma read_entry_eq c a k h : U c -> a < 2 ^ 64 -> k < 2 ^ 64 -> read_entry_ex d c a k h = Some (option_map no_rc (laste (until ch h) c a k)).
    Proof.
      intros HU HA HK. assert (O' : forall w, In w (until ch h) -> write_ok U w) by (intros; eapply ok_until; eauto).
      unfold read_entry_ex. rewrite (h_ent _ _ HO), vfind_rows, lfind_ent by auto. apply load_ser. intros v E. eapply laste_ok; eauto.
    Qed.
  End DB.
End U.

(** ** Iteration *)
Notation blt := (fun x y : bytes => bytescmp x y = Lt).
Lemma vkeys_sorted t : StronglySorted blt (vkeys t).
Proof. unfold vkeys. apply (items_sorted bytescmp bytescmp_total). Qed.
Lemma vkeys_in t k : In k (vkeys t) <-> exists e, In e t /\ r_key e = k.
Proof.
  unfold vkeys. split.
  - intros I. apply in_map_iff in I as ((k', []) & <- & I). apply (items_in bytescmp bytescmp_total addr_eqb addr_eqb_spec) in I. apply in_map_iff in I as (e & E & I). injection E as <-. eauto.
  - intros (e & I & <-). set (l := map (fun e0 => (r_key e0, tt)) t).
    assert (X : lfind addr_eqb (r_key e) (items bytescmp l) <> None).
    { rewrite (items_find bytescmp bytescmp_total addr_eqb addr_eqb_spec). clear - I. unfold l. clear l. induction t as [|x t IH]; [destruct I|]. cbn. destruct (addr_eqb_spec (r_key e) (r_key x)) as [E|E]; [discriminate|].
      destruct I as [->|I]; [congruence|auto]. }
    destruct (lfind addr_eqb (r_key e) (items bytescmp l)) as [[]|] eqn:E; [|congruence].
    apply (lfind_in addr_eqb addr_eqb_spec) in E. apply (in_map fst) in E. exact E.
Qed.
Lemma seek_spec k l : StronglySorted blt l -> StronglySorted blt (seek k l) /\ forall x, In x (seek k l) <-> In x l /\ bytescmp x k <> Lt.
Proof.
  induction 1 as [|y l S IH F]; cbn [seek]; [split; [constructor|cbn; tauto]|]. destruct IH as (A & B).
  destruct (bytescmp y k) eqn:E.
  2: { split; [exact A|]. intros x. rewrite B. cbn. split; [tauto|]. intros ([<-|I] & N0); [congruence|auto]. }
  1,2: (split; [now constructor|]; intros x; split; [|tauto]; intros I; split; [exact I|]; destruct I as [<-|I]; [congruence|];
    intros L; rewrite Forall_forall in F; specialize (F x I); pose proof (klt_trans bytescmp_total F L) as X; unfold klt in X; congruence).
Qed.

Definition dec_range (c : addr) (e : N) (k : bytes) : option (option N) :=
  match read_key k with None => None | Some (p, a) => if negb (addr_eqb p (firstn HASH_KEY_SIZE c)) || (e <=? a) then Some None else Some (Some a) end.
Definition dec_entry (c : addr) (a : N) (k : bytes) : option (option N) :=
  match read_entry_key k with None => None | Some (p, a', x) => if negb (addr_eqb p (firstn HASH_KEY_SIZE c)) || negb (a' =? a) then Some None else Some (Some x) end.
Fixpoint scan (dec : bytes -> option (option N)) (l : list bytes) : option (list (bytes * N)) :=
  match l with
  | [] => Some []
  | k :: l => match dec k with None => None | Some None => Some [] | Some (Some x) => match scan dec l with Some r => Some ((k, x) :: r) | None => None end end
  end.
Lemma range_scan c e l : range_keys c e l = scan (dec_range c e) l.
Proof. induction l as [|k l IH]; [reflexivity|]. cbn [range_keys scan]. unfold dec_range at 1. destruct (read_key k) as [(p, a)|]; auto. destruct (negb _ || _); auto. now rewrite IH. Qed.
Lemma entry_scan c a l : entry_keys c a l = scan (dec_entry c a) l.
Proof. induction l as [|k l IH]; [reflexivity|]. cbn [entry_keys scan]. unfold dec_entry at 1. destruct (read_entry_key k) as [((p, a'), x)|]; auto. destruct (negb _ || _); auto. now rewrite IH. Qed.

Section SCAN.
  Variable P : bytes.
  Variable e : N.
  Variable dec : bytes -> option (option N).
  Variable good : bytes -> Prop.
  Definition keyf (x : N) : bytes := P ++ be_bytes 8 x.
  Hypothesis D : forall k, good k -> exists P1 x, k = P1 ++ be_bytes 8 x /\ length P1 = length P /\ x < 2 ^ 64 /\
    ((P1 = P /\ x < e) -> dec k = Some (Some x)) /\ (~ (P1 = P /\ x < e) -> dec k = Some None).
  Lemma key_inj P1 P2 x y : length P1 = length P2 -> x < 2 ^ 64 -> y < 2 ^ 64 -> P1 ++ be_bytes 8 x = P2 ++ be_bytes 8 y -> P1 = P2 /\ x = y.
  Proof.
    intros L A B E. apply app_len_inj in E; auto. destruct E as (-> & E). split; auto. apply (be_inj 8) in E; auto.
  Qed.
  Lemma scan_spec b l : b < 2 ^ 64 -> StronglySorted blt l -> (forall k, In k l -> good k /\ bytescmp k (keyf b) <> Lt) ->
    exists r, scan dec l = Some r /\ StronglySorted (fun p q => snd p < snd q) r /\
      forall k x, In (k, x) r <-> In k l /\ k = keyf x /\ x < e /\ x < 2 ^ 64.
  Proof.
    intros HB S G. induction S as [|k l S IH F]; cbn [scan].
    - exists []. split; [reflexivity|]. split; [constructor|]. cbn. tauto.
    - destruct IH as (r & E & SR & R); [intros; apply G; now right|]. destruct (G k (or_introl eq_refl)) as (GK & GB).
      destruct (D k GK) as (P1 & x1 & EK & L1 & B1 & D1 & D2). rewrite Forall_forall in F.
      assert (NEXT : forall y, y < 2 ^ 64 -> bytescmp k (keyf y) = Lt -> P1 = P /\ x1 < y).
      { intros y HY LT. subst k. unfold keyf in *. rewrite bytescmp_app in LT, GB by auto.
        destruct (bytescmp P1 P) eqn:C; [|congruence|discriminate]. apply (tc_eq bytescmp_total) in C. split; auto.
        rewrite (bytescmp_be 8) in LT by auto. now apply N.compare_lt_iff in LT. }
      assert (DEC : (P1 = P /\ x1 < e) \/ ~ (P1 = P /\ x1 < e)).
      { destruct (list_eq_dec N.eq_dec P1 P), (N.lt_ge_cases x1 e); try (left; tauto); right; intros (? & ?); [lia|congruence|congruence]. }
      destruct DEC as [(EP & LX)|NO].
      + rewrite D1 by auto. rewrite E. eexists. split; [reflexivity|]. subst P1. split.
        * constructor; auto. rewrite Forall_forall. intros (k2, x2) I2. cbn [snd]. apply R in I2 as (I2 & -> & _ & B2). apply (NEXT x2 B2). now apply F.
        * intros k2 x2. cbn [In]. rewrite R. split.
          -- intros [X|(I2 & X)]; [injection X as <- <-; auto 10|]. tauto.
          -- intros ([<-|I2] & EK2 & L2 & B2); [left|right; auto]. rewrite EK in EK2. unfold keyf in EK2. apply key_inj in EK2 as (_ & <-); auto.
      + rewrite D2 by auto. exists []. split; [reflexivity|]. split; [constructor|]. intros k2 x2. cbn [In]. split; [tauto|]. intros ([<-|I2] & EK2 & L2 & B2).
        * rewrite EK in EK2. unfold keyf in EK2. apply key_inj in EK2 as (-> & <-); auto.
        * subst k2. destruct (NEXT x2 B2 (F _ I2)) as (-> & LX). apply NO. split; auto. lia.
  Qed.
End SCAN.

Lemma sorted_map {A B} (g : A -> B) (R : B -> B -> Prop) l : StronglySorted (fun x y => R (g x) (g y)) l -> StronglySorted R (map g l).
Proof. induction 1 as [|x l S IH F]; cbn; constructor; auto. rewrite Forall_forall in *. intros y I. apply in_map_iff in I as (z & <- & I). auto. Qed.

Lemma fetch_spec t h (g : N -> option svar) : forall ks, StronglySorted (fun p q => snd p < snd q) ks -> (forall k x, In (k, x) ks -> load (vfind t k h) = Some (g x)) ->
  exists r, fetch t h ks = Some r /\ by_address r /\ forall x v, In (x, v) r <-> (exists k, In (k, x) ks) /\ g x = Some v.
Proof.
  induction 1 as [|(k, x) ks S IH F]; intros G; cbn [fetch].
  - exists []. split; [reflexivity|]. split; [constructor|]. intros x v. cbn. split; [tauto|]. intros ((k & []) & _).
  - destruct IH as (r & E & SR & R); [intros; apply G; now right|]. rewrite (G k x) by now left. rewrite E. rewrite Forall_forall in F.
    destruct (g x) as [w|] eqn:GX; eexists; (split; [reflexivity|]).
    + split.
      * constructor; auto. rewrite Forall_forall. intros (y, u) I. apply R in I as ((k2 & I) & _). apply (F (k2, y) I).
      * intros y u. cbn [In]. rewrite R. split.
        -- intros [X|((k2 & I) & X)]; [injection X as <- <-; split; [exists k; now left|exact GX]|]. split; [exists k2; now right|exact X].
        -- intros ((k2 & [X|I]) & X2); [injection X as <- <-; left; congruence|]. right. split; [now exists k2|exact X2].
    + split; [exact SR|]. intros y u. rewrite R. split.
      * intros ((k2 & I) & X). split; [exists k2; now right|exact X].
      * intros ((k2 & [X|I]) & X2); [injection X as <- <-; congruence|]. split; [now exists k2|exact X2].
Qed.

Section U2.
  Variable U : addr -> Prop.
  Variable DP : distinct_prefix U.
  Variables (d : vdb) (ch : chain).
  Hypothesis HO : holds d ch.
  Hypothesis OK : forall w, In w (List.concat ch) -> write_ok U w.

  Lemma tab_keys f k : In k (vkeys (rev (rows f 0 ch))) <-> exists data, In (k, data) (fm f (List.concat ch)).
  Proof.
    rewrite vkeys_in. rewrite <- (rows_plain f ch 0). split.
    - intros (e & I & <-). exists (snd e). apply in_map_iff. exists e. split; auto. now apply in_rev in I.
    - intros (data & I). apply in_map_iff in I as (e & E & I). injection E as <- <-. exists e. split; auto. now apply in_rev in I.
  Qed.
  Lemma in_fm f p ws : In p (fm f ws) <-> exists w, In w ws /\ f w = Some p.
  Proof.
    unfold fm. rewrite in_flat_map. split; intros (w & I & X); exists w; (split; [exact I|]); destruct (f w) as [q|]; cbn in *; try tauto; try discriminate; [destruct X as [->|[]]; auto|injection X as ->; auto].
  Qed.
  Lemma until_in h w : In w (until ch h) -> In w (List.concat ch).
  Proof. intros I. unfold until in I. rewrite <- (firstn_skipn (S (N.to_nat h)) ch), concat_app. apply in_or_app. now left. Qed.
  Lemma prefix_len c : U c -> length (firstn 20 c) = 20%nat.
  Proof. intros H. destruct DP as (L & _). rewrite firstn_length, (L c H). reflexivity. Qed.
  Lemma firstn_pre (p q : bytes) n : length p = n -> firstn n (p ++ q) = p.
  Proof. intros <-. rewrite firstn_app, Nat.sub_diag, firstn_all. apply app_nil_r. Qed.
  Lemma skipn_pre (p q : bytes) n : length p = n -> skipn n (p ++ q) = q.
  Proof. intros <-. rewrite skipn_app, Nat.sub_diag, skipn_all. reflexivity. Qed.
  Lemma firstn_be a : firstn 8 (be_bytes 8 a) = be_bytes 8 a.
  Proof. apply firstn_all2. now rewrite be_length. Qed.
  Lemma read_get_key c a : U c -> a < 2 ^ 64 -> read_key (get_key c a) = Some (firstn 20 c, a).
  Proof.
    intros H A. pose proof (prefix_len c H) as L. unfold read_key, get_key, HASH_KEY_SIZE. rewrite app_length, L, be_length. change ((20 + 8 <? 28)%nat) with false. cbn iota.
    set (p := firstn 20 c) in *. clearbody p. rewrite firstn_pre, skipn_pre, firstn_be by exact L. now rewrite of_be_be_small.
  Qed.
  Lemma read_write_entry_key c a k : U c -> a < 2 ^ 64 -> k < 2 ^ 64 -> read_entry_key (write_entry_key c a k) = Some (firstn 20 c, a, k).
  Proof.
    intros H A K. pose proof (prefix_len c H) as L. unfold read_entry_key, write_entry_key, HASH_KEY_SIZE. rewrite !app_length, L, !be_length. change ((20 + (8 + 8) <? 36)%nat) with false. cbn iota.
    set (p := firstn 20 c) in *. clearbody p. rewrite firstn_pre, skipn_pre by exact L. rewrite (firstn_pre (be_bytes 8 a)) by apply be_length.
    rewrite app_assoc, skipn_pre by (rewrite app_length, L, be_length; reflexivity). rewrite firstn_be. now rewrite !of_be_be_small.
  Qed.

  Lemma find_range_eq c b e h : U c -> b < 2 ^ 64 -> e < 2 ^ 64 ->
    exists r, find_range d c b e h = Some r /\ by_address r /\
      forall a v, In (a, v) r <-> b <= a < e /\ option_map no_rc (lastv (until ch h) c a) = Some v.
  Proof.
    intros HU HB HE. unfold find_range. rewrite (h_tab _ _ HO). set (t := rev (rows fv 0 ch)). rewrite range_scan.
    set (good := fun k => exists c' a', U c' /\ a' < 2 ^ 64 /\ k = get_key c' a').
    assert (D : forall k, good k -> exists P1 x, k = P1 ++ be_bytes 8 x /\ length P1 = length (firstn 20 c) /\ x < 2 ^ 64 /\
              ((P1 = firstn 20 c /\ x < e) -> dec_range c e k = Some (Some x)) /\ (~ (P1 = firstn 20 c /\ x < e) -> dec_range c e k = Some None)).
    { intros k (c' & a' & HU' & HA' & ->). exists (firstn 20 c'), a'. split; [reflexivity|]. rewrite !prefix_len by auto. split; [reflexivity|]. split; [exact HA'|].
      unfold dec_range, HASH_KEY_SIZE. rewrite read_get_key by auto. destruct (addr_eqb_spec (firstn 20 c') (firstn 20 c)) as [E|E], (N.leb_spec e a') as [L|L]; cbn [negb orb];
        split; intros Z; auto; try (destruct Z; (lia || congruence)); exfalso; apply Z; auto. }
    destruct (seek_spec (get_key c b) (vkeys t) (vkeys_sorted t)) as (SS & SI).
    destruct (scan_spec (firstn 20 c) e (dec_range c e) good D b (seek (get_key c b) (vkeys t)) HB SS) as (ks & EK & SK & IK).
    { intros k I. apply SI in I as (I & N0). split; [|exact N0]. unfold t in I. apply tab_keys in I as (data & I). apply in_fm in I as (w & I & E).
      destruct w as [c' a' v|]; [|discriminate]. injection E as <- <-. destruct (OK _ I) as (HU' & HA' & _). exists c', a'. split; auto. split; [lia|reflexivity]. }
    rewrite EK. destruct (fetch_spec t h (fun a => option_map no_rc (lastv (until ch h) c a)) ks SK) as (r & ER & SR & IR).
    { intros k x I. apply IK in I as (_ & -> & _ & HX). change (keyf (firstn 20 c) x) with (get_key c x). pose proof (read_ex_eq U DP d ch HO OK c x h HU HX) as X. unfold read_ex in X. rewrite (h_tab _ _ HO) in X. exact X. }
    exists r. split; [exact ER|]. split; [exact SR|]. intros a v. rewrite IR. split.
    - intros ((k & I) & G). split; [|exact G]. apply IK in I as (I & -> & L & HA). apply SI in I as (_ & N0). split; [|exact L].
      change (keyf (firstn 20 c) a) with (firstn 20 c ++ be_bytes 8 a) in N0. unfold get_key, HASH_KEY_SIZE in N0. rewrite bytescmp_app in N0 by auto.
      rewrite (cmp_refl bytescmp_total) in N0. rewrite (bytescmp_be 8) in N0 by auto. rewrite N.compare_lt_iff in N0. lia.
    - intros ((L1 & L2) & G). split; [|exact G]. exists (get_key c a). apply IK. split; [|split; [reflexivity|split; [exact L2|lia]]].
      apply SI. split.
      + unfold t. apply tab_keys. destruct (lastv (until ch h) c a) as [w|] eqn:EL; [|discriminate]. apply lastv_some in EL as (l1 & l2 & EU & _).
        exists (ser w). apply in_fm. exists (WVar c a w). split; [|reflexivity]. apply (until_in h). rewrite EU. apply in_or_app. right. now left.
      + unfold get_key, HASH_KEY_SIZE. rewrite bytescmp_app by auto. rewrite (cmp_refl bytescmp_total). rewrite (bytescmp_be 8) by (auto; change (256 ^ N.of_nat 8) with (2 ^ 64); lia). rewrite N.compare_lt_iff. lia.
  Qed.
  Lemma find_entries_eq c a h : U c -> a < 2 ^ 64 ->
    exists r, find_entries d c a h = Some r /\ by_address r /\
      forall k v, In (k, v) r <-> k < 2 ^ 64 /\ option_map no_rc (laste (until ch h) c a k) = Some v.
  Proof.
    intros HU HA. unfold find_entries. rewrite (h_ent _ _ HO). set (t := rev (rows fe 0 ch)). rewrite entry_scan.
    set (P := firstn 20 c ++ be_bytes 8 a). assert (KE : forall c' a' x, write_entry_key c' a' x = (firstn 20 c' ++ be_bytes 8 a') ++ be_bytes 8 x) by (intros; unfold write_entry_key, HASH_KEY_SIZE; apply app_assoc).
    set (good := fun k => exists c' a' x', U c' /\ a' < 2 ^ 64 /\ x' < 2 ^ 64 /\ k = write_entry_key c' a' x').
    assert (D : forall k, good k -> exists P1 x, k = P1 ++ be_bytes 8 x /\ length P1 = length P /\ x < 2 ^ 64 /\
              ((P1 = P /\ x < 2 ^ 64) -> dec_entry c a k = Some (Some x)) /\ (~ (P1 = P /\ x < 2 ^ 64) -> dec_entry c a k = Some None)).
    { intros k (c' & a' & x' & HU' & HA' & HX' & ->). exists (firstn 20 c' ++ be_bytes 8 a'), x'. split; [apply KE|]. unfold P. rewrite !app_length, !prefix_len, !be_length by auto. split; [reflexivity|]. split; [exact HX'|].
      unfold dec_entry, HASH_KEY_SIZE. rewrite read_write_entry_key by auto.
      assert (PE : firstn 20 c' ++ be_bytes 8 a' = firstn 20 c ++ be_bytes 8 a <-> firstn 20 c' = firstn 20 c /\ a' = a).
      { split; [intros X; apply key_inj in X; auto; now rewrite !prefix_len by auto|intros (-> & ->); reflexivity]. }
      rewrite PE. destruct (addr_eqb_spec (firstn 20 c') (firstn 20 c)) as [E|E], (N.eqb_spec a' a) as [L|L]; cbn [negb orb];
        split; intros Z; auto; try (destruct Z as ((? & ?) & ?); congruence); exfalso; apply Z; auto. }
    destruct (seek_spec (write_entry_key c a 0) (vkeys t) (vkeys_sorted t)) as (SS & SI).
    destruct (scan_spec P (2 ^ 64) (dec_entry c a) good D 0 (seek (write_entry_key c a 0) (vkeys t)) eq_refl SS) as (ks & EK & SK & IK).
    { intros k I. apply SI in I as (I & N0). split; [|rewrite KE in N0; exact N0]. unfold t in I. apply tab_keys in I as (data & I). apply in_fm in I as (w & I & E).
      destruct w as [|c' a' x' v]; [discriminate|]. injection E as <- <-. destruct (OK _ I) as (HU' & HA' & HX' & _). exists c', a', x'. auto. }
    rewrite EK. destruct (fetch_spec t h (fun x => option_map no_rc (laste (until ch h) c a x)) ks SK) as (r & ER & SR & IR).
    { intros k x I. apply IK in I as (_ & -> & _ & HX). pose proof (read_entry_eq U DP d ch HO OK c a x h HU HA HX) as X. unfold read_entry_ex in X. rewrite (h_ent _ _ HO), KE in X. exact X. }
    exists r. split; [exact ER|]. split; [exact SR|]. intros k v. rewrite IR. split.
    - intros ((k' & I) & G). apply IK in I as (_ & _ & L & _). auto.
    - intros (L & G). split; [|exact G]. exists (write_entry_key c a k). apply IK. split; [|split; [apply KE|auto]].
      apply SI. split.
      + unfold t. apply tab_keys. destruct (laste (until ch h) c a k) as [w|] eqn:EL; [|discriminate]. apply laste_some in EL as (l1 & l2 & EU & _).
        exists (ser w). apply in_fm. exists (WEnt c a k w). split; [|reflexivity]. apply (until_in h). rewrite EU. apply in_or_app. right. now left.
      + rewrite !KE. rewrite bytescmp_app by auto. rewrite (cmp_refl bytescmp_total). rewrite (bytescmp_be 8) by (auto; reflexivity). rewrite N.compare_lt_iff. lia.
  Qed.
End U2.
