(** Invariants of the virtual machine: what every instruction leaves unchanged *)
Require Import List Arith NArith ZArith Bool Lia.
From Verif Require Import BytesLib OrdLib VarModel InstrModel EngineModel EngineSpec.
Import ListNotations.
Open Scope N_scope.

(** ** maps *)
Lemma aget_aset_any {K V} (cmp : K -> K -> comparison) (TC : TotalCmp cmp) k (v : V) l k' :
  aget cmp k' (aset cmp k v l) = match cmp k' k with Eq => Some v | _ => aget cmp k' l end.
Proof.
  induction l as [|(k0, v0) l IH]; simpl.
  - destruct (cmp k' k); auto.
  - destruct (cmp k k0) eqn:E; simpl.
    + apply (tc_eq TC) in E. subst. destruct (cmp k' k0); auto.
    + destruct (cmp k' k); auto.
    + destruct (cmp k' k0) eqn:E2; rewrite ?IH; auto.
      apply (tc_eq TC) in E2. subst. rewrite (tc_opp TC), E. simpl. auto.
Qed.
Lemma entcmp_total : TotalCmp entcmp.
Proof. apply lexcmp_total; apply Ncompare_total. Qed.
Lemma loc_eqb_spec x y : Bool.reflect (x = y) (loc_eqb x y).
Proof.
  destruct x as [a|a k], y as [b|b j]; simpl; try (constructor; congruence).
  - destruct (N.eqb_spec a b); constructor; congruence.
  - destruct (N.eqb_spec a b), (N.eqb_spec k j); simpl; constructor; congruence.
Qed.
Lemma cell_put l o s l' : cell (put_cell l o s) l' = if loc_eqb l' l then Some o else cell s l'.
Proof.
  destruct (loc_eqb_spec l' l) as [->|D].
  - destruct l as [a|a k]; simpl.
    + rewrite (aget_aset_any _ Ncompare_total), N.compare_refl. auto.
    + rewrite (aget_aset_any _ entcmp_total).
      replace (entcmp (a, k) (a, k)) with Eq; auto. symmetry. apply (tc_eq entcmp_total). auto.
  - destruct l as [a|a k], l' as [b|b j]; simpl; auto.
    + rewrite (aget_aset_any _ Ncompare_total). destruct (b ?= a) eqn:E; auto. apply N.compare_eq in E. congruence.
    + rewrite (aget_aset_any _ entcmp_total). destruct (entcmp (b, j) (a, k)) eqn:E; auto.
      apply (tc_eq entcmp_total) in E. congruence.
Qed.
Lemma cell_put_same l o s : cell (put_cell l o s) l = Some o.
Proof. rewrite cell_put. destruct (loc_eqb_spec l l); congruence. Qed.
Lemma cell_put_other l o s l' : l' <> l -> cell (put_cell l o s) l' = cell s l'.
Proof. rewrite cell_put. destruct (loc_eqb_spec l' l); congruence. Qed.

(** ** reasoning about the monad: [I] holds after success, [T] after an exception *)
Definition hb {A} (I T : st -> Prop) (s : st) (m : M A) (Q : A -> st -> Prop) : Prop :=
  match m s with Ok a s' => I s' /\ Q a s' | Throw s' | Undefined s' => T s' | Fuel => False end.
Section HB.
  Variables I T : st -> Prop.
  Lemma hb_bind A B s (m : M A) (k : A -> M B) (Q : A -> st -> Prop) Q' :
    hb I T s m Q -> (forall a s', I s' -> Q a s' -> hb I T s' (k a) Q') -> hb I T s (bind m k) Q'.
  Proof. unfold hb, bind. intros H K. destruct (m s) as [a s'|s'|s'|]; auto. destruct H as (H1 & H2). apply K; auto. Qed.
  Lemma hb_ret A s (a : A) (Q : A -> st -> Prop) : I s -> Q a s -> hb I T s (ret a) Q.
  Proof. unfold hb, ret. auto. Qed.
  Lemma hb_throw A s (Q : A -> st -> Prop) : T s -> hb I T s throw Q.
  Proof. unfold hb, throw. auto. Qed.
  Lemma hb_undefined A s (Q : A -> st -> Prop) : T s -> hb I T s undefined Q.
  Proof. unfold hb, undefined. auto. Qed.
  Lemma hb_get B s (k : st -> M B) Q : hb I T s (k s) Q -> hb I T s (bind get k) Q.
  Proof. unfold hb, bind, get. auto. Qed.
  Lemma hb_modify s f (Q : unit -> st -> Prop) : I (f s) -> Q tt (f s) -> hb I T s (modify f) Q.
  Proof. unfold hb, modify. auto. Qed.
  Lemma hb_conseq A s (m : M A) (Q Q' : A -> st -> Prop) :
    hb I T s m Q -> (forall a s', I s' -> Q a s' -> Q' a s') -> hb I T s m Q'.
  Proof. unfold hb. destruct (m s); intuition. Qed.
  Lemma hb_weaken (I' T' : st -> Prop) A s (m : M A) (Q Q' : A -> st -> Prop) :
    hb I T s m Q -> (forall a s', I s' -> Q a s' -> I' s' /\ Q' a s') -> (forall s', T s' -> T' s') -> hb I' T' s m Q'.
  Proof. unfold hb. intros H1 H2 H3. destruct (m s); intuition; eapply H2; eauto. Qed.
End HB.

(** ** the memory of the engine *)
Definition hdr_ok (l : loc) (v : val) : Prop :=
  match l, v with
  | LMem a, VArray b _ | LMem a, VMap b => b = a
  | LEnt _ _, VArray _ _ | LEnt _ _, VMap _ => False
  | _, _ => True
  end.
Definition ram_ok (r : ram) : Prop :=
  (forall c a v, ram_read r c a = Some v -> hdr_ok (LMem a) (sv_val v)) /\
  (forall c a k v, ram_read_entry r c a k = Some v -> hdr_ok (LEnt a k) (sv_val v)).
Definition backend_ok (b : backend) : Prop :=
  (forall c a v, bk_read b c a = Some v -> hdr_ok (LMem a) (sv_val v)) /\
  (forall c a k v, bk_entry b c a k = Some v -> hdr_ok (LEnt a k) (sv_val v)).
Definition cells_ok (s : st) : Prop :=
  (forall a o, In (a, o) (s_mem s) -> hdr_ok (LMem a) (o_val o)) /\
  (forall a k o, In ((a, k), o) (s_ent s) -> hdr_ok (LEnt a k) (o_val o)).
Definition st_ok (s : st) : Prop := cells_ok s /\ ram_ok (s_ram s).
Lemma aget_in {K V} (cmp : K -> K -> comparison) (TC : TotalCmp cmp) k (v : V) l : aget cmp k l = Some v -> In (k, v) l.
Proof.
  induction l as [|(k0, v0) l IH]; simpl; [discriminate|]. destruct (cmp k k0) eqn:E; auto.
  intros [= ->]. apply (tc_eq TC) in E. subst. auto.
Qed.
Lemma aset_in {K V} (cmp : K -> K -> comparison) k (v : V) l e : In e (aset cmp k v l) -> e = (k, v) \/ In e l.
Proof.
  induction l as [|(k0, v0) l IH]; simpl.
  - intros [<-|[]]; auto.
  - destruct (cmp k k0); simpl; intuition.
Qed.
Lemma cells_ok_cell s l o : cells_ok s -> cell s l = Some o -> hdr_ok l (o_val o).
Proof.
  intros (H1 & H2). destruct l as [a|a k]; simpl; intros E.
  - apply (aget_in _ Ncompare_total) in E. exact (H1 _ _ E).
  - apply (aget_in _ entcmp_total) in E. exact (H2 _ _ _ E).
Qed.

Definition val_le (v' v : val) : Prop := v' = v \/ exists b n n', v = VArray b n /\ v' = VArray b n' /\ n' <= n.
Lemma val_le_refl v : val_le v v. Proof. left. auto. Qed.
Lemma val_le_trans a b c : val_le a b -> val_le b c -> val_le a c.
Proof.
  intros [H|(x & n & n' & H1 & H2 & L)] [K|(y & m & m' & K1 & K2 & L')]; subst.
  - left. auto.
  - right. eauto 7.
  - right. exists x, n, n'. auto.
  - injection K2 as -> ->. right. exists y, m, n'. repeat split; auto. lia.
Qed.

Definition is_const (o : obj) : Prop := f_const (o_fl o) = true.
Definition same_entry (s s' : st) (a k : N) : Prop :=
  forall e, cell s (LEnt a k) = Some e ->
  exists e', cell s' (LEnt a k) = Some e' /\ o_val e' = o_val e /\ f_deleted (o_fl e') = f_deleted (o_fl e).
(** constants and call context stay as they are; [ex] is an entry that may change *)
Definition Rcell (ex : option (N * N)) (s s' : st) : Prop :=
  forall a o, a < MEM_STACK -> cell s (LMem a) = Some o -> is_const o ->
  exists o', cell s' (LMem a) = Some o' /\ is_const o' /\ f_deleted (o_fl o') = f_deleted (o_fl o) /\
             val_le (o_val o') (o_val o) /\
             (forall b n k, o_val o' = VArray b n -> k < n -> Some (a, k) <> ex -> same_entry s s' a k).
Lemma Rcell_refl ex s : Rcell ex s s.
Proof. intros a o L C F. exists o. repeat split; auto using val_le_refl. intros b n k _ _ _ e E. eauto. Qed.
Lemma Rcell_trans ex s1 s2 s3 : Rcell ex s1 s2 -> Rcell ex s2 s3 -> Rcell ex s1 s3.
Proof.
  intros H1 H2 a o L C F. destruct (H1 a o L C F) as (o2 & C2 & F2 & D2 & V2 & E2).
  destruct (H2 a o2 L C2 F2) as (o3 & C3 & F3 & D3 & V3 & E3).
  exists o3. repeat split; auto; try congruence; eauto using val_le_trans.
  intros b n k V Lk NE e He.
  assert (exists n2, o_val o2 = VArray b n2 /\ n <= n2) as (n2 & V2' & Ln).
  { destruct V3 as [E|(b' & m & m' & P1 & P2 & P3)].
    - rewrite V in E. exists n. split; [congruence|lia].
    - rewrite V in P2. injection P2 as -> ->. eauto. }
  destruct (E2 b n2 k V2' ltac:(lia) NE e He) as (e2 & G2 & W2 & X2).
  destruct (E3 b n k V Lk NE e2 G2) as (e3 & G3 & W3 & X3). exists e3. repeat split; congruence.
Qed.

(** what the memory functions do not touch *)
Definition rest (s : st) := (s_bal s, s_outs s, s_mints s, s_frames s, s_world s, s_limit s, s_contract s, s_version s, s_ro s,
                             s_code s, s_init s, s_fetched s).
Record Rm (ex : option (N * N)) (s s' : st) : Prop := mk_Rm {
  rm_rest : rest s' = rest s; rm_gas : s_gas s <= s_gas s'; rm_cell : Rcell ex s s' }.
Record RmT (s s' : st) : Prop := mk_RmT { rt_rest : rest s' = rest s; rt_gas : s_gas s <= s_gas s' }.
Lemma Rm_refl ex s : Rm ex s s.
Proof. split; auto using Rcell_refl. lia. Qed.
Lemma Rm_trans ex s1 s2 s3 : Rm ex s1 s2 -> Rm ex s2 s3 -> Rm ex s1 s3.
Proof. intros [] []. split; try congruence; try lia; eauto using Rcell_trans. Qed.
Lemma RmT_refl s : RmT s s. Proof. split; auto. lia. Qed.
Lemma RmT_trans ex s1 s2 s3 : Rm ex s1 s2 -> RmT s2 s3 -> RmT s1 s3.
Proof. intros [] []. split; try congruence; lia. Qed.
Lemma Rm_RmT ex s s' : Rm ex s s' -> RmT s s'.
Proof. intros []. split; auto. Qed.
Lemma Rm_ex s s' ex : Rm None s s' -> Rm ex s s'.
Proof.
  intros []. split; auto. intros a o L C F. destruct (rm_cell0 a o L C F) as (o' & ? & ? & ? & ? & H).
  exists o'. repeat split; auto. intros b n k ? ? ?. eapply H; eauto. congruence.
Qed.

Lemma rest_world s s' : rest s' = rest s -> s_world s' = s_world s.
Proof. unfold rest. intros H. congruence. Qed.
Lemma rest_ram s s' : rest s' = rest s -> s_ram s' = s_ram s.
Proof. unfold s_ram. intros H. rewrite (rest_world _ _ H). auto. Qed.

(** changing one cell *)
Definition efree (ex : option (N * N)) (s : st) (a k : N) : Prop :=
  ex = Some (a, k) \/
  forall o, a < MEM_STACK -> cell s (LMem a) = Some o -> is_const o -> forall b n, o_val o = VArray b n -> n <= k.
Definition free (ex : option (N * N)) (s : st) (l : loc) : Prop :=
  match l with
  | LMem a => forall o, a < MEM_STACK -> cell s l = Some o -> is_const o -> False
  | LEnt a k => efree ex s a k
  end.
Lemma Rcell_put ex s s' l o : Rcell ex s s' -> free ex s l -> Rcell ex s (put_cell l o s').
Proof.
  intros H Fr a o1 L C F. destruct (H a o1 L C F) as (o2 & C2 & F2 & D2 & V2 & E2).
  assert (LMem a <> l) as NE. { intros <-. simpl in Fr. eapply Fr; eauto. }
  exists o2. rewrite cell_put_other by auto. repeat split; auto.
  intros b n k V Lk NX e He. destruct (E2 b n k V Lk NX e He) as (e' & G & W & X).
  exists e'. rewrite cell_put_other; auto. intros <-. simpl in Fr. destruct Fr as [Fr|Fr]; [congruence|].
  destruct V2 as [E|(b' & m & m' & P1 & P2 & P3)].
  - rewrite V in E. specialize (Fr o1 L C F b n (eq_sym E)). lia.
  - specialize (Fr o1 L C F b' m P1). rewrite V in P2. injection P2 as -> ->. lia.
Qed.
Definition similar (o o1 : obj) : Prop :=
  o_val o = o_val o1 /\ f_deleted (o_fl o) = f_deleted (o_fl o1) /\ (is_const o1 -> is_const o).
Lemma Rcell_put_sim ex s s' l o o1 : Rcell ex s s' -> cell s' l = Some o1 -> similar o o1 -> Rcell ex s (put_cell l o s').
Proof.
  intros H C1 (S1 & S2 & S3) a o2 L C F. destruct (H a o2 L C F) as (o3 & C3 & F3 & D3 & V3 & E3).
  assert (forall k, same_entry s s' a k -> same_entry s (put_cell l o s') a k) as SE.
  { intros k HE e He. destruct (HE e He) as (e' & G & W & X). rewrite cell_put.
    destruct (loc_eqb_spec (LEnt a k) l) as [<-|]; eauto.
    rewrite G in C1. injection C1 as <-. exists o. repeat split; congruence. }
  rewrite cell_put. destruct (loc_eqb_spec (LMem a) l) as [<-|].
  - rewrite C3 in C1. injection C1 as <-. exists o.
    split; [reflexivity|]. split; [auto|]. split; [congruence|]. split; [rewrite S1; auto|].
    intros b n k V Lk NX. apply SE. refine (E3 b n k _ Lk NX). congruence.
  - exists o3. split; [auto|]. split; [auto|]. split; [auto|]. split; [auto|].
    intros b m k V Lk NX. apply SE. exact (E3 b m k V Lk NX).
Qed.
(** states that differ in other things than cells *)
Lemma Rcell_ext ex s s' s'' : Rcell ex s s' -> s_mem s'' = s_mem s' -> s_ent s'' = s_ent s' -> Rcell ex s s''.
Proof.
  intros H E1 E2 a o L C F. destruct (H a o L C F) as (o' & C' & H').
  exists o'. unfold same_entry in *. unfold cell in *. rewrite E1, E2. auto.
Qed.
Lemma st_ok_put s l o : st_ok s -> hdr_ok l (o_val o) -> st_ok (put_cell l o s).
Proof.
  intros ((H1 & H2) & H3) H. split; [|destruct l; exact H3]. destruct l as [a|a k]; split.
  - intros b u Hin. apply aset_in in Hin. destruct Hin as [E|Hin]; [injection E as -> ->; auto|eauto].
  - exact H2.
  - exact H1.
  - intros b j u Hin. apply aset_in in Hin. destruct Hin as [E|Hin]; [injection E as -> -> ->; auto|exact (H2 _ _ _ Hin)].
Qed.
Lemma rest_put l o s : rest (put_cell l o s) = rest s.
Proof. destruct l; reflexivity. Qed.
Lemma gas_put l o s : s_gas (put_cell l o s) = s_gas s.
Proof. destruct l; reflexivity. Qed.
Lemma st_ok_ext s s' : st_ok s -> s_mem s' = s_mem s -> s_ent s' = s_ent s -> s_world s' = s_world s -> st_ok s'.
Proof.
  intros (H1 & H2) E1 E2 E3. split.
  - unfold cells_ok. rewrite E1, E2. exact H1.
  - unfold s_ram. rewrite E3. exact H2.
Qed.

Lemma Rm_put ex s s' l o : Rm ex s s' -> free ex s l -> Rm ex s (put_cell l o s').
Proof.
  intros [] F. split.
  - rewrite rest_put. auto.
  - rewrite gas_put. auto.
  - apply Rcell_put; auto.
Qed.
Lemma Rm_put_sim ex s s' l o o1 : Rm ex s s' -> cell s' l = Some o1 -> similar o o1 -> Rm ex s (put_cell l o s').
Proof.
  intros [] C S. split.
  - rewrite rest_put. auto.
  - rewrite gas_put. auto.
  - eapply Rcell_put_sim; eauto.
Qed.
Lemma Rm_ext ex s s' s'' : Rm ex s s' -> rest s'' = rest s' -> s_gas s' <= s_gas s'' -> s_mem s'' = s_mem s' -> s_ent s'' = s_ent s' ->
  Rm ex s s''.
Proof.
  intros [] E1 E2 E3 E4. split; [congruence|lia|]. eapply Rcell_ext; eauto.
Qed.
(** the location is free if the variable in it is not constant now *)
Lemma free_now ex s s' a o : Rcell ex s s' -> cell s' (LMem a) = Some o -> f_const (o_fl o) = false -> free ex s (LMem a).
Proof.
  intros H C F o1 L C1 F1. destruct (H a o1 L C1 F1) as (o2 & C2 & F2 & _). unfold is_const in *. congruence.
Qed.
Lemma free_none ex s s' a : Rcell ex s s' -> cell s' (LMem a) = None -> free ex s (LMem a).
Proof. intros H C o1 L C1 F1. destruct (H a o1 L C1 F1) as (o2 & C2 & _). congruence. Qed.
Lemma free_high ex s a : MEM_STACK <= a -> free ex s (LMem a).
Proof. intros H o L. exfalso. lia. Qed.
Lemma efree_now ex s s' a k o : Rcell ex s s' -> cell s' (LMem a) = Some o -> f_const (o_fl o) = false -> efree ex s a k.
Proof. intros H C F. right. intros o1 L C1 F1. exfalso. exact (free_now _ _ _ _ _ H C F o1 L C1 F1). Qed.
Lemma efree_high ex s a k : MEM_STACK <= a -> efree ex s a k.
Proof. intros H. right. intros o L. exfalso. lia. Qed.

Ltac hbind := eapply hb_bind.

Section MEMORY.
  Variable bk : backend.
  Hypothesis bk_ok : backend_ok bk.
  Variable ex : option (N * N).
  Variable s0 : st.
  Definition inv (s : st) : Prop := Rm ex s0 s /\ st_ok s.
  Notation hm := (hb inv (RmT s0)).
  Lemma inv_T s : inv s -> RmT s0 s.
  Proof. intros (H & _). eapply Rm_RmT; eauto. Qed.
  Lemma inv_ext s s' : inv s -> rest s' = rest s -> s_gas s <= s_gas s' -> s_mem s' = s_mem s -> s_ent s' = s_ent s -> inv s'.
  Proof.
    intros (H1 & H2) E1 E2 E3 E4. split; [eapply Rm_ext; eauto|]. eapply st_ok_ext; eauto using rest_world.
  Qed.
  Lemma inv_put s l o : inv s -> free ex s0 l -> hdr_ok l (o_val o) -> inv (put_cell l o s).
  Proof. intros (H1 & H2) F K. split; [apply Rm_put|apply st_ok_put]; auto. Qed.
  Lemma inv_put_sim s l o o1 : inv s -> cell s l = Some o1 -> similar o o1 -> inv (put_cell l o s).
  Proof.
    intros (H1 & H2) C S. split; [eapply Rm_put_sim|apply st_ok_put]; eauto.
    destruct S as (-> & _). destruct H2 as (H2 & _). exact (cells_ok_cell _ _ _ H2 C).
  Qed.
  Lemma inv_hdr s l o : inv s -> cell s l = Some o -> hdr_ok l (o_val o).
  Proof. intros (_ & (H & _)). apply cells_ok_cell. auto. Qed.
  Lemma inv_cell s : inv s -> Rcell ex s0 s.
  Proof. intros (H & _). apply (rm_cell _ _ _ H). Qed.

  Lemma hm_throw A s (Q : A -> st -> Prop) : inv s -> hm s throw Q.
  Proof. intros. apply hb_throw. apply inv_T. auto. Qed.
  Lemma hm_undefined A s (Q : A -> st -> Prop) : inv s -> hm s undefined Q.
  Proof. intros. apply hb_undefined. apply inv_T. auto. Qed.
  Lemma hm_ret A s (a : A) (Q : A -> st -> Prop) : inv s -> Q a s -> hm s (ret a) Q.
  Proof. intros. apply hb_ret; auto. Qed.
  Lemma hm_check_gas s (Q : unit -> st -> Prop) : inv s -> Q tt s -> hm s check_gas Q.
  Proof.
    intros H K. unfold hb, check_gas. destruct (s_limit s <? s_gas s); auto.
    destruct (inv_T _ H) as []. split; auto.
  Qed.
  Lemma hm_add_gas s n (Q : unit -> st -> Prop) : inv s -> Q tt (set_gas (s_gas s + n) s) -> hm s (add_gas n) Q.
  Proof. intros H K. apply hb_modify; auto. eapply inv_ext; eauto; simpl; lia. Qed.
  Lemma hm_put s l o (Q : unit -> st -> Prop) :
    inv s -> free ex s0 l -> hdr_ok l (o_val o) -> Q tt (put_cell l o s) -> hm s (put l o) Q.
  Proof. intros. apply hb_modify; auto. apply inv_put; auto. Qed.
  Lemma hm_put_sim s l o o1 (Q : unit -> st -> Prop) :
    inv s -> cell s l = Some o1 -> similar o o1 -> Q tt (put_cell l o s) -> hm s (put l o) Q.
  Proof. intros. apply hb_modify; auto. eapply inv_put_sim; eauto. Qed.
  Lemma hm_put_new s l rc f v :
    inv s -> free ex s0 l -> hdr_ok l v ->
    hm s (put_new l rc f v) (fun id s' => cell s' l = Some (mk_obj id rc f v)).
  Proof.
    intros H F K. unfold hb, put_new. split; [|apply cell_put_same].
    apply inv_put; auto. eapply inv_ext; eauto. simpl. lia.
  Qed.
  Definition loaded (r : sref) (s : st) (o : obj) : Prop :=
    match r with STmp v => o_val o = v /\ o_fl o = no_fl | SRef l id => cell s l = Some o end.
  Lemma hm_load s r : inv s -> hm s (load r) (fun o s' => s' = s /\ loaded r s o).
  Proof.
    intros H. destruct r as [v|l id]; simpl.
    - apply hm_ret; simpl; auto.
    - apply hb_get. destruct (cell s l) as [o|] eqn:E; [|apply hm_undefined; auto].
      destruct (o_id o =? id); [apply hm_ret|apply hm_undefined]; auto.
  Qed.

  Lemma stored_read_ok s a v : st_ok s -> cache_read bk (s_ram s) (s_contract s) a = Some v -> hdr_ok (LMem a) (sv_val v).
  Proof.
    intros (_ & (H & _)). unfold cache_read. destruct (ram_read (s_ram s) (s_contract s) a) eqn:E; [intros [= <-]; eauto|].
    destruct bk_ok as (B & _). apply B.
  Qed.
  Lemma stored_entry_ok s a k v : st_ok s -> cache_entry bk (s_ram s) (s_contract s) a k = Some v -> hdr_ok (LEnt a k) (sv_val v).
  Proof.
    intros (_ & (_ & H)). unfold cache_entry. destruct (ram_read_entry (s_ram s) (s_contract s) a k) eqn:E; [intros [= <-]; eauto|].
    destruct bk_ok as (_ & B). apply B.
  Qed.
  Lemma read_ex_val ro v v' : read_ex ro v = Some v' -> exists v0, v = Some v0 /\ sv_val v' = sv_val v0.
  Proof. destruct v as [v0|]; simpl; [|discriminate]. destruct (f_deleted (sv_fl v0)); [discriminate|]. intros [= <-]. eauto. Qed.
  Definition same_cells (s s' : st) : Prop := s_mem s' = s_mem s /\ s_ent s' = s_ent s.
  Lemma same_cells_cell s s' l : same_cells s s' -> cell s' l = cell s l.
  Proof. intros (H1 & H2). unfold cell. rewrite H1, H2. auto. Qed.
  Lemma hm_charge_read s v : inv s -> hm s (charge_read v) (fun _ s' => same_cells s s').
  Proof.
    intros H. unfold charge_read. hbind.
    - apply hm_add_gas with (Q := fun _ s' => same_cells s s'); auto. split; auto.
    - intros ? s' H' K. apply hm_check_gas; auto.
  Qed.
  Lemma hm_stor_read s a : inv s ->
    hm s (stor_read bk a) (fun v s' => same_cells s s' /\ forall v', v = Some v' -> hdr_ok (LMem a) (sv_val v')).
  Proof.
    intros H. unfold stor_read. apply hb_get. hbind; [apply hm_charge_read; auto|].
    intros ? s' H' K. apply hm_ret; auto. split; auto. intros v' E. apply read_ex_val in E. destruct E as (v0 & E & ->).
    eapply stored_read_ok; eauto. destruct H; auto.
  Qed.
  Lemma hm_stor_entry s a k : inv s ->
    hm s (stor_entry bk a k) (fun v s' => same_cells s s' /\ forall v', v = Some v' -> hdr_ok (LEnt a k) (sv_val v')).
  Proof.
    intros H. unfold stor_entry. apply hb_get. hbind; [apply hm_charge_read; auto|].
    intros ? s' H' K. apply hm_ret; auto. split; auto. intros v' E. apply read_ex_val in E. destruct E as (v0 & E & ->).
    eapply stored_entry_ok; eauto. destruct H; auto.
  Qed.
  Lemma hm_put_stored s l v : inv s -> free ex s0 l -> hdr_ok l (sv_val v) ->
    hm s (put_stored l v) (fun _ s' => exists o, cell s' l = Some o /\ o_val o = sv_val v).
  Proof.
    intros H F K. unfold put_stored. eapply hb_conseq; [apply hm_put_new; auto|]. intros id s' _ C. eexists. split; [exact C|reflexivity].
  Qed.
  Lemma static_stack a : (MEM_STATIC <=? a) = true -> MEM_STACK <= a.
  Proof. intros L. apply N.leb_le in L. assert (MEM_STACK <= MEM_STATIC) by (vm_compute; discriminate). lia. Qed.
  Lemma hm_read s a mo : inv s ->
    hm s (read bk a mo) (fun o s' => (mo = true -> s' = s) /\ forall o', o = Some o' -> cell s' (LMem a) = Some o').
  Proof.
    intros H. unfold read. apply hb_get. destruct (cell s (LMem a)) as [o|] eqn:E.
    - apply hm_ret; auto. split; auto. intros o' E'. destruct (f_deleted (o_fl o)) eqn:D; [discriminate|]. injection E' as <-. auto.
    - destruct mo; [apply hm_ret; auto; split; auto; discriminate|].
      destruct (MEM_STATIC <=? a) eqn:L; [|apply hm_ret; auto; split; [auto|discriminate]].
      hbind; [apply hm_stor_read; auto|]. intros [v|] s1 H1 (SC & K).
      + hbind; [apply hm_put_stored; auto|].
        * apply free_high. apply static_stack; auto.
        * intros id s2 H2 (o & C & V). apply hb_get. apply hm_ret; auto. split; [discriminate|]. intros o' E'. exact E'.
      + apply hm_ret; auto. split; discriminate.
  Qed.
  Lemma hm_read_fail s a : inv s -> hm s (read_fail bk a) (fun o s' => cell s' (LMem a) = Some o).
  Proof.
    intros H. unfold read_fail. hbind; [apply hm_read; auto|]. intros [o|] s' H' (_ & K).
    - apply hm_ret; auto.
    - apply hm_throw; auto.
  Qed.
  Lemma hm_read_entry s a k : inv s ->
    hm s (read_entry bk a k) (fun o s' => forall o', o = Some o' -> cell s' (LEnt a k) = Some o').
  Proof.
    intros H. unfold read_entry. apply hb_get. destruct (cell s (LEnt a k)) as [o|] eqn:E.
    - apply hm_ret; auto. intros o' E'. destruct (f_deleted (o_fl o)) eqn:D; [discriminate|]. injection E' as <-. auto.
    - destruct (MEM_STATIC <=? a) eqn:L; [|apply hm_ret; auto; discriminate].
      hbind; [apply hm_stor_entry; auto|]. intros [v|] s1 H1 (SC & K).
      + hbind; [apply hm_put_stored; auto|].
        * apply efree_high. apply static_stack; auto.
        * intros id s2 H2 (o & C & V). apply hb_get. apply hm_ret; auto.
      + apply hm_ret; auto. discriminate.
  Qed.
  Lemma hm_read_entry_fail s a k : inv s -> hm s (read_entry_fail bk a k) (fun o s' => cell s' (LEnt a k) = Some o).
  Proof.
    intros H. unfold read_entry_fail. hbind; [apply hm_read_entry; auto|]. intros [o|] s' H' K.
    - apply hm_ret; auto.
    - apply hm_throw; auto.
  Qed.
  Definition any {A} (_ : A) (_ : st) : Prop := True.
  Lemma hm_any A s (m : M A) Q : hm s m Q -> hm s m any.
  Proof. intros. eapply hb_conseq; eauto. intros. exact Logic.I. Qed.
  Lemma hm_bind_any A B s (m : M A) (k : A -> M B) Q' :
    hm s m any -> (forall a s', inv s' -> hm s' (k a) Q') -> hm s (bind m k) Q'.
  Proof. intros. eapply hb_bind; eauto. Qed.

  Lemma similar_refl_flags o o1 : o_val o = o_val o1 -> f_deleted (o_fl o) = f_deleted (o_fl o1) ->
    f_const (o_fl o) = f_const (o_fl o1) -> similar o o1.
  Proof. intros. repeat split; auto. unfold is_const. congruence. Qed.
  Lemma similar_addref o : similar (obj_addref o) o.
  Proof. unfold obj_addref. destruct (f_stored (o_fl o)) eqn:E; apply similar_refl_flags; auto. Qed.
  Lemma similar_dec o : similar (obj_dec o) o.
  Proof. apply similar_refl_flags; auto. Qed.
  Lemma similar_pin o : similar (obj_pin o) o.
  Proof. unfold obj_pin. destruct (f_stored (o_fl o)), (o_rc o =? 0); apply similar_refl_flags; auto. Qed.
  Lemma hm_addref s a : inv s -> hm s (addref bk a) any.
  Proof.
    intros H. unfold addref. hbind; [apply hm_read; auto|]. intros [o|] s' H' (_ & K).
    - eapply hm_put_sim; eauto using similar_addref. exact Logic.I.
    - apply hm_ret; auto. exact Logic.I.
  Qed.

  Section ERASE_P.
    Variable er : loc -> M unit.
    Hypothesis er_mem : forall s a, inv s -> hm s (er (LMem a)) any.
    Hypothesis er_ent : forall s a k, inv s -> efree ex s0 a k -> hm s (er (LEnt a k)) any.
    Lemma hm_erase_mem_with s a : inv s -> hm s (erase_mem_with bk er a) any.
    Proof.
      intros H. unfold erase_mem_with. apply hb_get. destruct (cell s (LMem a)) as [o|] eqn:E; [apply er_mem; auto|].
      destruct (MEM_STATIC <=? a) eqn:L; [|apply hm_ret; auto; exact Logic.I].
      hbind; [apply hm_stor_read; auto|]. intros [v|] s1 H1 (SC & K).
      - hbind; [apply hm_put_stored; auto|].
        + apply free_high. apply static_stack; auto.
        + intros. apply er_mem; auto.
      - apply hm_ret; auto. exact Logic.I.
    Qed.
    Lemma hm_unref_with s a : inv s -> hm s (unref_with bk er a) any.
    Proof.
      intros H. unfold unref_with. hbind; [apply hm_read; auto|]. intros [o|] s' H' (_ & K).
      - destruct (f_stored (o_fl o)); [apply hm_ret; auto; exact Logic.I|].
        destruct (o_rc o =? 0); [apply hm_throw; auto|].
        hbind; [eapply hm_put_sim with (Q := any); eauto using similar_dec; exact Logic.I|]. intros ? s2 H2 ?.
        destruct (o_rc o =? 1); [apply hm_erase_mem_with; auto|apply hm_ret; auto; exact Logic.I].
      - apply hm_ret; auto. exact Logic.I.
    Qed.
    Lemma hm_erase_keys_with s a ks : inv s -> (forall k, efree ex s0 a k) -> hm s (erase_keys_with er a ks) any.
    Proof.
      intros H F. revert s H. induction ks as [|k ks IH]; intros s H; simpl.
      - apply hm_ret; auto. exact Logic.I.
      - apply hm_bind_any; [apply er_ent; auto|]. intros _ s1 H1.
        apply hm_bind_any; [apply hm_check_gas; auto; exact Logic.I|]. intros _ s2 H2. apply IH; auto.
    Qed.
    Lemma hm_clear_with s l o : inv s -> hdr_ok l (o_val o) -> (forall a k, l = LMem a -> efree ex s0 a k) ->
      hm s (clear_with bk er o) any.
    Proof.
      intros H K F. unfold clear_with. destruct (o_val o) eqn:V; try (apply hm_ret; auto; exact Logic.I).
      - apply hm_unref_with; auto.
      - destruct (f_stored (o_fl o)); [apply hm_throw; auto|]. unfold erase_entries_with. apply hb_get.
        apply hm_erase_keys_with; auto. destruct l; simpl in K; [subst|contradiction]. intros. apply F. auto.
      - destruct (f_stored (o_fl o)); [apply hm_throw; auto|]. unfold erase_entries_with. apply hb_get.
        apply hm_erase_keys_with; auto. destruct l; simpl in K; [subst|contradiction]. intros. apply F. auto.
    Qed.
  End ERASE_P.

  Lemma hm_erase_loc n : forall s l, inv s -> (forall a k, l = LEnt a k -> efree ex s0 a k) -> hm s (erase_loc bk n l) any.
  Proof.
    induction n as [|n IH]; intros s l H F; simpl; apply hb_get; destruct (cell s l) as [o|] eqn:E;
      try (apply hm_ret; auto; exact Logic.I).
    - destruct (f_const (o_fl o)); [apply hm_throw; auto|]. destruct (f_deleted (o_fl o)); [apply hm_ret; auto; exact Logic.I|].
      destruct (negb (o_rc o =? 0)); apply hm_throw; auto.
    - destruct (f_const (o_fl o)) eqn:C; [apply hm_throw; auto|]. destruct (f_deleted (o_fl o)); [apply hm_ret; auto; exact Logic.I|].
      destruct (negb (o_rc o =? 0)); [apply hm_throw; auto|].
      assert (free ex s0 l) as Fr.
      { destruct l as [a|a k]; [eapply free_now; eauto using inv_cell|simpl; auto]. }
      assert (forall a k, l = LMem a -> efree ex s0 a k) as Fe.
      { intros a k ->. eapply efree_now; eauto using inv_cell. }
      apply hm_bind_any; [apply hm_add_gas; auto; exact Logic.I|]. intros _ s1 H1.
      apply hm_bind_any; [apply hm_check_gas; auto; exact Logic.I|]. intros _ s2 H2.
      apply hm_bind_any.
      { apply hm_clear_with with (l := l); auto.
        - intros. apply IH; auto. discriminate.
        - intros. apply IH; auto. intros ? ? [= <- <-]. auto.
        - exact (inv_hdr _ _ _ H E). }
      intros _ s3 H3. apply hb_get.
      apply hm_bind_any; [eapply hm_any; apply hm_put_new; auto|].
      { destruct l; simpl; auto. }
      intros. apply hm_ret; auto. exact Logic.I.
  Qed.
  Lemma hm_er_mem s a : inv s -> hm s (er bk (LMem a)) any.
  Proof. intros. apply hm_erase_loc; auto. discriminate. Qed.
  Lemma hm_er_ent s a k : inv s -> efree ex s0 a k -> hm s (er bk (LEnt a k)) any.
  Proof. intros. apply hm_erase_loc; auto. intros ? ? [= <- <-]. auto. Qed.
  Lemma hm_erase_mem s a : inv s -> hm s (erase_mem bk a) any.
  Proof. intros. apply hm_erase_mem_with; auto using hm_er_mem. Qed.
  Lemma hm_unref s a : inv s -> hm s (unref bk a) any.
  Proof. intros. apply hm_unref_with; auto using hm_er_mem. Qed.
  Lemma hm_clear s l o : inv s -> hdr_ok l (o_val o) -> (forall a k, l = LMem a -> efree ex s0 a k) -> hm s (clear bk o) any.
  Proof. intros. apply hm_clear_with with (l := l); auto using hm_er_mem, hm_er_ent. Qed.

  Definition ent_free (l : loc) : Prop := match l with LMem _ => True | LEnt a k => efree ex s0 a k end.
  Lemma hm_assign_loc s l v : inv s -> hdr_ok l v -> ent_free l -> hm s (assign_loc bk l v) any.
  Proof.
    intros H K F. unfold assign_loc. apply hb_get.
    assert (free ex s0 l \/ exists o, cell s l = Some o /\ f_const (o_fl o) = true) as Fr.
    { destruct (cell s l) as [o|] eqn:E.
      - destruct (f_const (o_fl o)) eqn:C; [right; eauto|left].
        destruct l as [a|a k]; [eapply free_now; eauto using inv_cell|simpl; auto].
      - left. destruct l as [a|a k]; [eapply free_none; eauto using inv_cell|simpl; auto]. }
    destruct Fr as [Fr|(o & E & C)].
    2:{ rewrite E, C. hbind; [apply hm_throw with (Q := fun _ _ => False); auto|intros; contradiction]. }
    apply hm_bind_any.
    { destruct (cell s l) as [o|] eqn:E; [|apply hm_ret; auto; exact Logic.I].
      destruct (f_const (o_fl o)) eqn:C; [apply hm_throw; auto|]. apply hm_clear with (l := l); auto.
      - exact (inv_hdr _ _ _ H E).
      - intros a k ->. eapply efree_now; eauto using inv_cell. }
    intros ? s1 H1. apply hm_bind_any.
    { destruct (MAX_VALUE_BYTES <? val_bytes v); [apply hm_throw|apply hm_ret]; auto; exact Logic.I. }
    intros ? s2 H2. apply hm_bind_any; [apply hm_add_gas; auto; exact Logic.I|]. intros ? s3 H3.
    apply hm_bind_any.
    { destruct (match cell s l with Some o => (o_rc o, o_fl o) | None => (0, no_fl) end) as (rc & f).
      eapply hm_any. apply hm_put_new; auto. }
    intros ? s4 H4. destruct v; try (apply hm_ret; auto; exact Logic.I). apply hm_addref; auto.
  Qed.
  Lemma hm_load_for_write s a : inv s -> hm s (load_for_write bk a) any.
  Proof.
    intros H. unfold load_for_write. apply hb_get. destruct (cell s (LMem a)); [apply hm_ret; auto; exact Logic.I|].
    destruct ((MEM_STATIC <=? a) && (a <? s_heap_base s)) eqn:L; [|apply hm_ret; auto; exact Logic.I].
    apply andb_prop in L. destruct L as (L & _).
    hbind; [apply hm_stor_read; auto|]. intros [v|] s1 H1 (SC & K); [|apply hm_ret; auto; exact Logic.I].
    apply hm_bind_any; [eapply hm_any; apply hm_put_stored; auto|].
    - apply free_high. apply static_stack; auto.
    - intros. apply hm_ret; auto; exact Logic.I.
  Qed.
  Lemma hm_check_init s a : inv s -> hm s (check_init a) any.
  Proof. intros H. unfold check_init. apply hb_get. destruct (s_init s && (a <? MEM_EXTERN)); [apply hm_throw|apply hm_ret]; auto; exact Logic.I. Qed.
  Lemma hm_assign s a v : inv s -> hm s (assign bk a v) any.
  Proof.
    intros H. unfold assign. apply hm_bind_any; [apply hm_check_init; auto|]. intros ? s1 H1.
    apply hm_bind_any; [apply hm_load_for_write; auto|]. intros ? s2 H2. apply hm_assign_loc; auto.
    - destruct v; simpl; auto.
    - exact Logic.I.
  Qed.
  Lemma hm_write_gen cont s l r : inv s -> ent_free l -> (forall s src, inv s -> hm s (cont src) any) ->
    hm s (write_gen bk cont l r) any.
  Proof.
    intros H F Hc. unfold write_gen. hbind; [apply hm_load; auto|]. intros src s1 H1 (-> & LD). 
    destruct (match ref_loc r with Some l' => loc_eqb l l' | None => false end); [apply hm_ret; auto; exact Logic.I|].
    destruct (f_deleted (o_fl src)); [apply hm_throw; auto|].
    apply hb_get.
    assert (forall s, inv s -> hm s (match o_val src with VArray _ _ | VMap _ => cont src | v => assign_loc bk l v end) any) as Fresh.
    { intros s2 H2. destruct (o_val src) eqn:V; try (apply Hc; auto); apply hm_assign_loc; auto; destruct l; simpl; auto. }
    set (fresh := match o_val src with VArray _ _ | VMap _ => cont src | v => assign_loc bk l v end) in *. clearbody fresh.
    destruct (cell s l) as [o|] eqn:E; [|apply Fresh; auto].
    destruct (f_const (o_fl o)) eqn:C; [apply hm_throw; auto|].
    assert (free ex s0 l) as Fr.
    { destruct l as [a|a k]; [eapply free_now; eauto using inv_cell|simpl; auto]. }
    pose proof (inv_hdr _ _ _ H E) as K.
    set (o' := if f_deleted (o_fl o) then with_fl (fun f => set_deleted false (set_dirty true f)) o else o).
    assert (o_val o' = o_val o) as V'. { unfold o'. destruct (f_deleted (o_fl o)); auto. }
    rewrite <- V' in K. clearbody o'.
    apply hm_bind_any; [apply hm_put; auto; exact Logic.I|]. intros ? s2 H2.
    assert (forall s v f, inv s -> hdr_ok l v -> hm s (put l (with_val v (with_fl f o'))) any) as Hput.
    { intros s3 v f H3 K3. apply hm_put; auto. exact Logic.I. }
    assert (forall s new old, inv s -> hm s (unref bk old ;;;
              s <- get ;;
              match cell s l with
              | Some o'' => if o_id o'' =? o_id o' then put l (with_val (VRef new) (with_fl (set_dirty true) o'')) ;;; addref bk new
                           else undefined
              | None => undefined
              end) any) as Href.
    { intros s3 new old H3. apply hm_bind_any; [apply hm_unref; auto|]. intros ? s4 H4. apply hb_get.
      destruct (cell s4 l) as [o''|]; [|apply hm_undefined; auto].
      destruct (o_id o'' =? o_id o'); [|apply hm_undefined; auto].
      apply hm_bind_any; [apply hm_put; auto; [destruct l; simpl; auto|exact Logic.I]|]. intros. apply hm_addref; auto. }
    destruct (o_val src) eqn:V1; destruct (o_val o') eqn:V2; simpl;
      repeat match goal with |- hb _ _ _ (if ?b then _ else _) _ => destruct b end;
      try (apply hm_ret; auto; exact Logic.I); try (apply Fresh; auto); try (apply Hput; auto; destruct l; simpl; auto; fail);
      apply Href; auto.
  Qed.
  Lemma hm_write_ent s l r : inv s -> ent_free l -> hm s (write_ent bk l r) any.
  Proof. intros. apply hm_write_gen; auto. intros. apply hm_throw; auto. Qed.
  Lemma hm_write_entry s a k r : inv s -> hm s (write_entry bk a k r) any.
  Proof.
    intros H. unfold write_entry. apply hm_bind_any; [apply hm_check_init; auto|]. intros ? s1 H1.
    hbind; [apply hm_read_fail; auto|]. intros c s2 H2 C. destruct (f_const (o_fl c)) eqn:F; [apply hm_throw; auto|].
    apply hm_write_ent; auto. exact (efree_now _ _ _ _ _ _ (inv_cell _ H2) C F).
  Qed.
  Lemma hm_copy_array d r n : forall s i, inv s -> hm s (copy_array bk d r n i) any.
  Proof.
    induction n as [|n IH]; intros s i H; cbn [copy_array]; (hbind; [apply hm_load; auto|]); intros src s1 H1 _.
    - apply hm_ret; auto; exact Logic.I.
    - destruct (o_val src); try (apply hm_undefined; auto).
      apply hm_bind_any; [eapply hm_any; apply hm_read_entry_fail; auto|]. intros e s2 H2.
      apply hm_bind_any; [apply hm_write_entry; auto|]. intros ? s3 H3.
      apply hm_bind_any; [apply hm_check_gas; auto; exact Logic.I|]. intros ? s4 H4. apply IH; auto.
  Qed.
  Lemma hm_copy_map d r ks : forall s, inv s -> hm s (copy_map bk d r ks) any.
  Proof.
    induction ks as [|k ks IH]; intros s H; cbn [copy_map]; (hbind; [apply hm_load; auto|]); intros src s1 H1 _.
    - destruct (o_val src); try (apply hm_undefined; auto). apply hm_ret; auto; exact Logic.I.
    - destruct (o_val src); try (apply hm_undefined; auto). apply hb_get.
      apply hm_bind_any; [|intros; apply IH; auto].
      destruct (cell s1 (LEnt addr k)) as [e|]; [|apply hm_ret; auto; exact Logic.I].
      destruct (f_deleted (o_fl e)); [apply hm_ret; auto; exact Logic.I|].
      apply hm_bind_any; [apply hm_write_entry; auto|]. intros ? s3 H3. apply hm_check_gas; auto; exact Logic.I.
  Qed.
  Lemma hm_write_container d r src s : inv s -> hm s (write_container bk d r src) any.
  Proof.
    intros H. unfold write_container. destruct (o_val src); try (apply hm_throw; auto).
    - apply hm_bind_any; [apply hm_assign_loc; simpl; auto|]. intros ? s1 H1. apply hm_copy_array; auto.
    - destruct (f_stored (o_fl src)); [apply hm_throw; auto|].
      apply hm_bind_any; [apply hm_assign_loc; simpl; auto|]. intros ? s1 H1.
      hbind; [apply hm_load; auto|]. intros src' s2 H2 _. apply hb_get. apply hm_copy_map; auto.
  Qed.
  Lemma hm_write s a r : inv s -> hm s (write bk a r) any.
  Proof.
    intros H. unfold write. apply hm_bind_any; [apply hm_check_init; auto|]. intros ? s1 H1.
    apply hm_bind_any; [apply hm_load_for_write; auto|]. intros ? s2 H2. apply hm_write_gen; auto.
    - exact Logic.I.
    - intros. apply hm_write_container; auto.
  Qed.
  Lemma hm_write_val s a v : inv s -> hm s (write_val bk a v) any.
  Proof. apply hm_write. Qed.
  Lemma hm_write_opt s a v : inv s -> hm s (write_opt bk a v) any.
  Proof. apply hm_write. Qed.
  Lemma hm_put_high s a o : inv s -> MEM_STACK <= a -> hdr_ok (LMem a) (o_val o) -> hm s (put (LMem a) o) any.
  Proof. intros. apply hm_put; auto using free_high. exact Logic.I. Qed.
  Lemma next_alloc_high : MEM_STACK <= NEXT_ALLOC.
  Proof. vm_compute. discriminate. Qed.
  Lemma hm_alloc s : inv s -> hm s (alloc bk) any.
  Proof.
    intros H. unfold alloc. hbind; [apply hm_read; auto|]. intros o s9 H9 _. apply hm_bind_any.
    { destruct o as [o|].
      - destruct (o_val o); try (apply hm_throw; auto). apply hm_ret; auto; exact Logic.I.
      - apply hm_bind_any.
        { apply hb_modify; [|exact Logic.I]. eapply inv_ext; eauto. simpl. lia. }
        intros ? s2 H2. apply hm_bind_any; [apply hm_assign; auto|]. intros ? s3 H3. apply hb_get.
        destruct (cell s3 (LMem NEXT_ALLOC)) as [o|] eqn:E; [|apply hm_ret; auto; exact Logic.I].
        eapply hm_put_sim; eauto using similar_pin. exact Logic.I. }
    clear o.
    intros ? s1 H1. apply hb_get. destruct (cell s1 (LMem NEXT_ALLOC)) as [o|] eqn:E; [|apply hm_throw; auto].
    destruct (o_val o); try (apply hm_throw; auto). destruct (2 ^ 64 - 1 <=? x); [apply hm_throw; auto|].
    apply hm_bind_any.
    { destruct (s_first_alloc s1); [|apply hm_ret; auto; exact Logic.I]. apply hb_modify; [|exact Logic.I]. eapply inv_ext; eauto. simpl. lia. }
    intros ? s2 H2. apply hm_bind_any; [apply hm_put_high; auto using next_alloc_high; simpl; auto|].
    intros ? s3 H3. apply hm_ret; auto; exact Logic.I.
  Qed.
  Lemma hm_stor_lookup s v : inv s -> hm s (stor_lookup bk v) any.
  Proof.
    intros H. unfold stor_lookup. apply hm_bind_any; [apply hm_add_gas; auto; exact Logic.I|]. intros ? s1 H1.
    apply hm_bind_any; [apply hm_check_gas; auto; exact Logic.I|]. intros ? s2 H2. apply hb_get. apply hm_ret; auto; exact Logic.I.
  Qed.
  Lemma hm_set_keys s f : inv s -> hm s (modify (fun s => set_keys (f s) s)) any.
  Proof. intros H. apply hb_modify; [|exact Logic.I]. eapply inv_ext; eauto. simpl. lia. Qed.
  Lemma hm_lookup s r ro : inv s -> hm s (lookup bk r ro) any.
  Proof.
    intros H. unfold lookup. hbind; [apply hm_load; auto|]. intros o s1 H1 _.
    destruct (type_of (o_val o) =? 0); [apply hm_throw; auto|].
    destruct (MAX_KEY_BYTES <? val_bytes (o_val o)); [apply hm_throw; auto|]. apply hb_get.
    destruct (find_key s1 (o_val o)); [apply hm_ret; auto; exact Logic.I|].
    apply hm_bind_any; [apply hm_stor_lookup; auto|]. intros key s2 H2.
    destruct (negb (key =? 0)).
    - hbind; [apply hm_read_fail; auto|]. intros o' s3 H3 _. destruct (f_const (o_fl o') && f_key (o_fl o')); [|apply hm_throw; auto].
      apply hm_bind_any; [apply hm_set_keys with (f := fun s => (o_val o', key) :: s_keys s); auto|]. intros. apply hm_ret; auto; exact Logic.I.
    - destruct ro; [apply hm_ret; auto; exact Logic.I|].
      apply hm_bind_any; [apply hm_alloc; auto|]. intros k s3 H3.
      apply hm_bind_any; [apply hm_write; auto|]. intros ? s4 H4. apply hb_get.
      destruct (cell s4 (LMem k)) as [o'|] eqn:E; [|apply hm_throw; auto].
      apply hm_bind_any.
      { eapply hm_put_sim; eauto; [|exact Logic.I]. unfold obj_addref. simpl.
        destruct (f_stored (o_fl o')); (split; [reflexivity|]); (split; [reflexivity|]); reflexivity. }
      intros ? s5 H5. apply hm_bind_any; [eapply hm_set_keys; auto|]. intros. apply hm_ret; auto; exact Logic.I.
  Qed.
  Lemma hm_lookup_addr s a ro : inv s -> hm s (lookup_addr bk a ro) any.
  Proof. intros H. unfold lookup_addr. hbind; [apply hm_read_fail; auto|]. intros o s1 H1 _. apply hm_lookup; auto. Qed.

  Lemma hm_erase_entry s a k : inv s -> efree ex s0 a k -> hm s (erase_entry bk a k) any.
  Proof.
    intros H F. unfold erase_entry. apply hb_get. destruct (cell s (LEnt a k)); [apply hm_er_ent; auto|].
    destruct (MEM_STATIC <=? a) eqn:L; [|apply hm_ret; auto; exact Logic.I].
    hbind; [apply hm_read_fail; auto|]. intros c s1 H1 _. destruct (f_stored (o_fl c)); [|apply hm_ret; auto; exact Logic.I].
    hbind; [apply hm_stor_entry; auto|]. intros [v|] s2 H2 (SC & K); [|apply hm_ret; auto; exact Logic.I].
    apply hm_bind_any; [eapply hm_any; apply hm_put_stored; auto|]. intros. apply hm_er_ent; auto.
  Qed.
  Lemma hm_push_back_ref s d r : inv s -> hm s (push_back_ref bk d r) any.
  Proof.
    intros H. unfold push_back_ref. hbind; [apply hm_read_fail; auto|]. intros arr s1 H1 C.
    destruct (o_val arr) eqn:V; try (apply hm_throw; auto).
    destruct (2 ^ 32 - 1 <=? size); [apply hm_throw; auto|].
    destruct (f_const (o_fl arr)) eqn:F.
    - (* the new size is written before the check *)
      set (o1 := with_val (VArray addr (size + 1)) arr).
      unfold hb. unfold bind at 1, put at 1, modify at 1. unfold bind at 1, write_entry at 1.
      assert (T : RmT s0 (put_cell (LMem d) o1 s1)).
      { destruct (inv_T _ H1). split; [rewrite rest_put|rewrite gas_put]; auto. }
      unfold bind at 1, check_init at 1, get at 1. unfold bind at 1.
      destruct (s_init (put_cell (LMem d) o1 s1) && (d <? MEM_EXTERN)); [exact T|].
      unfold ret at 1. unfold bind at 1, read_fail at 1. unfold bind at 1, read at 1. unfold bind at 1, get at 1.
      rewrite cell_put_same. unfold ret at 1. simpl (f_deleted (o_fl o1)). destruct (f_deleted (o_fl arr)); [exact T|].
      simpl (f_const (o_fl o1)). unfold ret at 1. simpl (f_const _). rewrite F. exact T.
    - assert (free ex s0 (LMem d)) as Fr. { exact (free_now _ _ _ _ _ (inv_cell _ H1) C F). }
      pose proof (inv_hdr _ _ _ H1 C) as K. rewrite V in K. simpl in K.
      apply hm_bind_any; [apply hm_put; simpl; auto; exact Logic.I|]. intros ? s2 H2.
      apply hm_bind_any; [apply hm_write_entry; auto|]. intros ? s3 H3.
      hbind; [apply hm_load; auto|]. intros o s4 H4 (-> & LD). change (cell s3 (LMem d) = Some o) in LD.
      apply hm_put; auto; [|exact Logic.I]. exact (inv_hdr _ _ _ H3 LD).
  Qed.
  Lemma hm_push_back s d src : inv s -> hm s (push_back bk d src) any.
  Proof.
    intros H. unfold push_back. destruct (d =? src); [apply hm_throw; auto|]. hbind; [apply hm_read_fail; auto|].
    intros o s1 H1 _. apply hm_push_back_ref; auto.
  Qed.
  Lemma hm_read_key s a key : inv s -> hm s (read_key bk a key) any.
  Proof.
    intros H. unfold read_key. apply hm_bind_any; [apply hm_lookup_addr; auto|]. intros k s1 H1.
    destruct (k =? 0); [apply hm_ret; auto; exact Logic.I|]. apply hm_bind_any; [eapply hm_any; apply hm_read_entry; auto|].
    intros. apply hm_ret; auto; exact Logic.I.
  Qed.
  Lemma map_efree s a k o m : inv s -> cell s (LMem a) = Some o -> o_val o = VMap m -> efree ex s0 a k.
  Proof.
    intros H C V. right. intros o1 L C1 F1 b n V1. destruct (inv_cell _ H a o1 L C1 F1) as (o2 & C2 & _ & _ & V2 & _).
    assert (o2 = o) by congruence. subst o2. rewrite V, V1 in V2. destruct V2 as [V2|(? & ? & ? & ? & ? & _)]; discriminate.
  Qed.
  Lemma hm_verase s a key : inv s -> hm s (verase bk a key) any.
  Proof.
    intros H. unfold verase. hbind; [apply hm_read_fail; auto|]. intros v s1 H1 C.
    destruct (o_val v) eqn:V; try (apply hm_throw; auto). unfold erase_key.
    apply hm_bind_any; [apply hm_lookup_addr; auto|]. intros k s2 H2. destruct (k =? 0); [apply hm_ret; auto; exact Logic.I|].
    apply hm_erase_entry; auto. exact (map_efree _ _ _ _ _ H1 C V).
  Qed.
  Lemma hm_add_gas_any s n : inv s -> hm s (add_gas n) any.
  Proof. intros. apply hm_add_gas; auto. exact Logic.I. Qed.
  Lemma hm_check_gas_any s : inv s -> hm s check_gas any.
  Proof. intros. apply hm_check_gas; auto. exact Logic.I. Qed.
  Lemma hm_load_any s r : inv s -> hm s (load r) any.
  Proof. intros. eapply hm_any. apply hm_load; auto. Qed.
  Lemma hm_read_any s a mo : inv s -> hm s (read bk a mo) any.
  Proof. intros. eapply hm_any. apply hm_read; auto. Qed.
  Lemma hm_read_fail_any s a : inv s -> hm s (read_fail bk a) any.
  Proof. intros. eapply hm_any. apply hm_read_fail; auto. Qed.
  Lemma hm_read_entry_fail_any s a k : inv s -> hm s (read_entry_fail bk a k) any.
  Proof. intros. eapply hm_any. apply hm_read_entry_fail; auto. Qed.
  Lemma hm_read_entry_any s a k : inv s -> hm s (read_entry bk a k) any.
  Proof. intros. eapply hm_any. apply hm_read_entry; auto. Qed.
  Hint Resolve hm_add_gas_any hm_check_gas_any hm_load_any hm_read_any hm_read_fail_any hm_read_entry_fail_any hm_read_entry_any
    hm_write hm_write_val hm_write_opt hm_write_entry hm_assign hm_alloc hm_lookup hm_lookup_addr hm_push_back_ref hm_push_back hm_read_key
    hm_verase hm_addref : hm.
  Ltac hm_step :=
    match goal with
    | |- hb _ _ _ (bind get _) _ => apply hb_get
    | |- hb _ _ _ (bind _ _) _ => apply hm_bind_any; [|intros]
    | |- hb _ _ _ (ret _) _ => apply hm_ret; [assumption|exact Logic.I]
    | |- hb _ _ _ throw _ => apply hm_throw; assumption
    | |- hb _ _ _ undefined _ => apply hm_undefined; assumption
    | |- hb _ _ _ (if ?b then _ else _) _ => destruct b
    | |- hb _ _ _ (match ?b with _ => _ end) _ => destruct b
    | |- hb _ _ _ _ _ => solve [auto with hm]
    end.
  Ltac hm_auto := repeat (cbv beta zeta; hm_step).
  Lemma hm_read_uint s a : inv s -> hm s (read_uint bk a) any.
  Proof. intros. unfold read_uint. hm_auto. Qed.
  Lemma hm_read_string s a : inv s -> hm s (read_string bk a) any.
  Proof. intros. unfold read_string. hm_auto. Qed.
  Lemma hm_read_binary s a : inv s -> hm s (read_binary bk a) any.
  Proof. intros. unfold read_binary. hm_auto. Qed.
  Lemma hm_to_addr s d : inv s -> hm s (to_addr d) any.
  Proof. intros. unfold to_addr. hm_auto. Qed.
  Lemma hm_bin_ok s d : inv s -> hm s (bin_ok d) any.
  Proof. intros. unfold bin_ok. hm_auto. Qed.
  Lemma hm_opt A s (o : option A) : inv s -> hm s (opt o) any.
  Proof. intros. unfold opt. hm_auto. Qed.
  Hint Resolve hm_read_uint hm_read_string hm_read_binary hm_to_addr hm_bin_ok hm_opt : hm.
  Lemma hm_alloc_bin s d mk b : inv s -> hm s (alloc_bin bk d mk b) any.
  Proof. intros. unfold alloc_bin. hm_auto. Qed.
  Hint Resolve hm_alloc_bin : hm.
  Lemma hm_copy s d src : inv s -> hm s (copy bk d src) any.
  Proof. intros. unfold copy. hm_auto. Qed.
  Lemma hm_clone s d src : inv s -> hm s (clone bk d src) any.
  Proof. intros. unfold clone. hm_auto. Qed.
  Lemma hm_vget s d a key hard : inv s -> hm s (vget bk d a key hard) any.
  Proof. intros. unfold vget. hm_auto. Qed.
  Lemma hm_vset s a key src : inv s -> hm s (vset bk a key src) any.
  Proof. intros. unfold vset. hm_auto. Qed.
  Lemma hm_concat_array d r n : forall s i, inv s -> hm s (concat_array bk d r n i) any.
  Proof. induction n as [|n IH]; intros s i H; cbn [concat_array]; hm_auto. Qed.
  Hint Resolve hm_concat_array : hm.
  Lemma hm_concat s d a b : inv s -> hm s (concat bk d a b) any.
  Proof. intros. unfold concat. hm_auto. Qed.
  Lemma hm_vmemcpy s d a b c : inv s -> hm s (vmemcpy bk d a b c) any.
  Proof. intros. unfold vmemcpy. hm_auto. Qed.
  Lemma hm_vsha256 x s d a : inv s -> hm s (vsha256 bk x d a) any.
  Proof. intros. unfold vsha256. hm_auto. Qed.
  Lemma hm_vverify x s d a b c : inv s -> hm s (vverify bk x d a b c) any.
  Proof. intros. unfold vverify. hm_auto. Qed.
  Lemma hm_conv x s d a b c : inv s -> hm s (conv bk x d a b c) any.
  Proof. intros. unfold conv. hm_auto. Qed.
  Lemma hm_parse_memo s a : inv s -> hm s (parse_memo bk a) any.
  Proof. intros. unfold parse_memo. hm_auto. Qed.
End MEMORY.

Lemma Rcell_shrink ex s s3 src o a n index :
  Rcell (Some (src, index)) s s3 ->
  (forall o0, cell s (LMem src) = Some o0 -> exists b, o_val o0 = VArray b (index + 1)) ->
  cell s3 (LMem src) = Some o -> o_val o = VArray a n ->
  Rcell ex s (put_cell (LMem src) (with_fl (set_dirty true) (with_val (VArray a (n - 1)) o)) s3).
Proof.
  intros H K C V a' o1 L C1 F1. destruct (H a' o1 L C1 F1) as (o2 & C2 & F2 & D2 & V2 & E2).
  assert (forall k, same_entry s s3 a' k ->
            same_entry s (put_cell (LMem src) (with_fl (set_dirty true) (with_val (VArray a (n - 1)) o)) s3) a' k) as SE.
  { intros k HE e He. destruct (HE e He) as (e' & G & W). exists e'. rewrite cell_put_other; auto. discriminate. }
  rewrite cell_put. destruct (loc_eqb_spec (LMem a') (LMem src)) as [E|NE].
  - injection E as ->. rewrite C2 in C. injection C as ->. destruct (K o1 C1) as (b & Vb).
    eexists. split; [reflexivity|]. split; [exact F2|]. split; [exact D2|].
    assert (b = a /\ n <= index + 1) as (-> & Ln).
    { rewrite V, Vb in V2. destruct V2 as [E|(x & m & m' & P1 & P2 & P3)].
      - injection E as <- ->. split; [auto|lia].
      - injection P1 as -> <-. injection P2 as -> <-. split; [auto|lia]. }
    split.
    + simpl. rewrite Vb. right. exists a, (index + 1), (n - 1). repeat split; auto. lia.
    + simpl. intros b' n' k [= <- <-] Lk _. apply SE. refine (E2 a n k V _ _); [lia|]. intros [= E]. lia.
  - exists o2. split; [auto|]. split; [auto|]. split; [auto|]. split; [auto|]. intros b m k Vb Lk NX. apply SE.
    refine (E2 b m k Vb Lk _). intros [= E E']. apply NE. congruence.
Qed.

Section MEMORY2.
  Variable bk : backend.
  Hypothesis bk_ok : backend_ok bk.
  Variable s0 : st.
  Lemma hm_pop_back s d src : inv None s0 s -> hb (inv None s0) (RmT s0) s (pop_back bk d src) any.
  Proof.
    intros H. unfold pop_back. destruct (d =? src); [apply hm_throw; auto|].
    hbind; [apply hm_read_fail; auto|]. intros arr s1 H1 C.
    destruct (o_val arr) eqn:V; try (apply hm_throw; auto).
    destruct (size =? 0) eqn:Z; [apply hm_throw; auto|]. apply N.eqb_neq in Z. cbv zeta.
    set (I1 := inv (Some (src, size - 1)) s1).
    assert (hb (fun s' => exists o a n s2, I1 s2 /\ cell s2 (LMem src) = Some o /\ o_val o = VArray a n /\
                  s' = put_cell (LMem src) (with_fl (set_dirty true) (with_val (VArray a (n - 1)) o)) s2) (RmT s1) s1
              (e <- read_entry_fail bk src (size - 1) ;;
               write bk d (ent_ref src (size - 1) e) ;;;
               erase_entry bk src (size - 1) ;;;
               o <- load (mem_ref src arr) ;;
               match o_val o with
               | VArray a n => put (LMem src) (with_fl (set_dirty true) (with_val (VArray a (n - 1)) o))
               | _ => undefined
               end) any) as HH.
    { assert (I1 s1) as HI. { split; [apply Rm_refl|exact (proj2 H1)]. }
      assert (forall A B s (m : M A) (k : A -> M B) J (Q : A -> st -> Prop) Q', hb I1 (RmT s1) s m Q ->
         (forall a s', I1 s' -> Q a s' -> hb J (RmT s1) s' (k a) Q') -> hb J (RmT s1) s (bind m k) Q') as BI.
      { unfold hb, bind. intros A B s2 m k J Q Q' X Y. destruct (m s2); auto. destruct X as (X1 & X2). exact (Y _ _ X1 X2). }
      eapply BI; [apply hm_read_entry_fail; auto|]. intros e s2 H2 _.
      eapply BI; [apply hm_write; auto|]. intros ? s3 H3 _.
      eapply BI; [apply hm_erase_entry; auto; left; auto|]. intros ? s4 H4 _.
      eapply BI; [apply hm_load; auto|]. intros o s5 H5 (-> & LD). change (cell s4 (LMem src) = Some o) in LD.
      destruct (o_val o) eqn:Vo; try (apply hb_undefined; eapply inv_T; eauto).
      unfold hb, put, modify. split; [|exact Logic.I]. exists o, addr0, size0, s4. split; [assumption|]. split; [assumption|]. split; [assumption|reflexivity]. }
    eapply hb_weaken; [exact HH| |].
    - intros ? s' (o & a & n & s2 & (R2 & K2) & C2 & V2 & ->) _. split; [|exact Logic.I].
      pose proof (cells_ok_cell _ _ _ (proj1 K2) C2) as HD. rewrite V2 in HD. simpl in HD. subst a.
      split.
      + destruct H1 as ([] & _). destruct R2. split.
        * rewrite rest_put. congruence.
        * rewrite gas_put. lia.
        * eapply Rcell_trans; eauto. eapply Rcell_shrink; eauto. intros o0 C0. rewrite C in C0. injection C0 as <-.
          exists addr. rewrite V. f_equal. lia.
      + apply st_ok_put; auto. simpl. auto.
    - intros s' [T1 T2]. destruct (inv_T _ _ _ H1). split; [congruence|lia].
  Qed.
End MEMORY2.

Create HintDb hm.
#[export] Hint Resolve hm_add_gas_any hm_check_gas_any hm_load_any hm_read_any hm_read_fail_any hm_read_entry_fail_any hm_read_entry_any
    hm_write hm_write_val hm_write_opt hm_write_entry hm_assign hm_alloc hm_lookup hm_lookup_addr hm_push_back_ref hm_push_back hm_read_key
    hm_verase hm_addref hm_read_uint hm_read_string hm_read_binary hm_to_addr hm_bin_ok hm_opt hm_alloc_bin hm_copy hm_clone hm_vget hm_vset
    hm_concat hm_vmemcpy hm_vsha256 hm_vverify hm_conv hm_parse_memo hm_pop_back hm_erase_mem hm_unref : hm.
Lemma inv_refl ex s : st_ok s -> inv ex s s.
Proof. intros. split; auto using Rm_refl. Qed.
