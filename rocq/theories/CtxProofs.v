(** What prepare_context sets up *)
Require Import List Arith NArith ZArith Bool Lia.
From Verif Require Import BytesLib OrdLib VarModel InstrModel EngineModel ExecModel StorModel TxModel BlockModel ParModel ParSpec EngineUpper LockProofs.
Import ListNotations.
Open Scope N_scope.

Lemma mem_In a l : mem a l = true <-> In a l.
Proof.
  unfold mem. rewrite existsb_exists. split.
  - intros (b & I & E). destruct (addr_eqb_spec a b); [subst; auto|discriminate].
  - intros I. exists a. split; auto. apply addr_eqb_refl.
Qed.
Lemma set_of_In a l : In a (set_of l) <-> In a l.
Proof.
  induction l as [|b l IH]; [reflexivity|]. cbn [set_of]. destruct (mem b l) eqn:M.
  - rewrite IH. split; [now right|]. intros [<-|I]; auto. now apply mem_In.
  - split; intros [<-|I]; [now left|right; now apply IH|now left|right; now apply IH].
Qed.
Lemma set_of_NoDup l : NoDup (set_of l).
Proof.
  induction l as [|b l IH]; cbn [set_of]; [constructor|]. destruct (mem b l) eqn:M; auto. constructor; auto.
  rewrite set_of_In. intros I. apply mem_In in I. congruence.
Qed.

(** ** dependencies *)
Section FOLD.
  Variable f : addr -> option (list addr).
  Definition collect (l : list addr) : option (list addr) :=
    fold_right (fun b acc => match f b, acc with Some l, Some l' => Some (l ++ l') | _, _ => None end) (Some []) l.
  Lemma collect_cons b l : collect (b :: l) = match f b, collect l with Some l, Some l' => Some (l ++ l') | _, _ => None end.
  Proof. reflexivity. Qed.
  Lemma collect_ok l : forall out, collect l = Some out -> forall x, In x out <-> exists b o, In b l /\ f b = Some o /\ In x o.
  Proof.
    induction l as [|b l IH]; intros out.
    - intros [= <-] x. split; [intros []|]. now intros (? & ? & [] & _).
    - rewrite collect_cons. destruct (f b) as [o|] eqn:F; [|discriminate]. destruct (collect l) as [o'|] eqn:CO; [|discriminate]. intros [= <-] x. rewrite in_app_iff, (IH o' eq_refl x). split.
      + intros [I|(b' & o2 & I & F2 & I2)]; [exists b, o; split; [now left|auto]|exists b', o2; split; [now right|auto]].
      + intros (b' & o2 & [<-|I] & F2 & I2); [left; congruence|right; eauto].
  Qed.
  Lemma collect_all l out : collect l = Some out -> forall b, In b l -> exists o, f b = Some o.
  Proof.
    revert out. induction l as [|b l IH]; intros out H b' I; [destruct I|]. rewrite collect_cons in H.
    destruct (f b) as [o|] eqn:F; [|discriminate]. destruct (collect l) as [o'|]; [|discriminate]. destruct I as [<-|I]; eauto.
  Qed.
End FOLD.
Section DEP.
  Variable dep : addr -> list addr.
  Variables max_depth max_width : N.
  Definition shut (l : list addr) : Prop := forall b, In b l -> incl (dep b) l.
  Lemma all_depends_closed f : forall a depth out, all_depends dep max_depth max_width f a depth = Some out -> incl (dep a) out /\ shut out.
  Proof.
    induction f as [|f IH]; intros a depth out; cbn [all_depends]; [discriminate|].
    change (fold_right _ (Some []) (dep a)) with (collect (fun b => all_depends dep max_depth max_width f b (depth + 1)) (dep a)).
    destruct (collect _ _) as [l|] eqn:CO; [|discriminate]. destruct (negb _ && _); [discriminate|]. destruct (_ <? _); [discriminate|]. intros [= <-].
    assert (KA : incl (dep a) (set_of (l ++ dep a))) by (intros x I; apply set_of_In, in_app_iff; now right). split; auto.
    intros b I x Ix. apply set_of_In, in_app_iff. left. apply set_of_In, in_app_iff in I as [I|I].
    - apply (collect_ok _ _ _ CO) in I as (c & o & Ic & F & I). destruct (IH _ _ _ F) as (_ & SH). apply (collect_ok _ _ _ CO). exists c, o. split; auto. split; auto. exact (SH b I x Ix).
    - destruct (collect_all _ _ _ CO b I) as (o & F). destruct (IH _ _ _ F) as (IN & _). apply (collect_ok _ _ _ CO). exists b, o. auto.
  Qed.
  Lemma exec_depends_closed f ex out : exec_depends dep max_depth max_width f ex = Some out -> incl (map snd (snd ex)) out /\ shut out.
  Proof.
    unfold exec_depends. destruct (_ <? _); [discriminate|].
    change (fold_right _ (Some []) ?own) with (collect (fun b => all_depends dep max_depth max_width f b 2) own).
    destruct (collect _ _) as [l|] eqn:CO; [|discriminate]. destruct (_ <? _); [discriminate|]. intros [= <-]. split.
    - intros x I. apply set_of_In, in_app_iff. left. now apply set_of_In.
    - intros b I x Ix. apply set_of_In, in_app_iff. right. apply set_of_In, in_app_iff in I as [I|I].
      + destruct (collect_all _ _ _ CO b I) as (o & F). destruct (all_depends_closed _ _ _ _ F) as (IN & _). apply (collect_ok _ _ _ CO). exists b, o. auto.
      + apply (collect_ok _ _ _ CO) in I as (c & o & Ic & F & I). destruct (all_depends_closed _ _ _ _ F) as (_ & SH). apply (collect_ok _ _ _ CO). exists c, o. split; auto. split; auto. exact (SH b I x Ix).
  Qed.
End DEP.

Section MUTATE.
  Variable G : deps.
  Variable t : tx.
  Variable s : list addr.
  Hypothesis MS : mutate_set G t = Some s.
  Definition more (a : addr) :=
    if addr_eqb a (t_id t)
    then match t_deploy t with
         | Some d => match k_exec (dp_contract d) with Some ex => exec_depends (g_dep G) (g_depth G) (g_width G) (g_fuel G) ex | None => Some [] end
         | None => Some []
         end
    else all_depends (g_dep G) (g_depth G) (g_width G) (g_fuel G) a 1.
  Definition own := set_of (match t_deploy t with Some _ => [t_id t] | None => [] end ++ map (op_target t) (t_ops t)).
  Lemma mutate_parts : exists l, collect more own = Some l /\ s = set_of (own ++ l).
  Proof. revert MS. unfold mutate_set. fold own. fold more. change (fold_right _ (Some []) own) with (collect more own). destruct (collect more own); [|discriminate]. intros [= <-]. eauto. Qed.
  Lemma mutate_NoDup : NoDup s.
  Proof. destruct mutate_parts as (l & _ & ->). apply set_of_NoDup. Qed.
  Lemma mutate_own a : In a own -> In a s.
  Proof. destruct mutate_parts as (l & _ & ->). intros I. apply set_of_In, in_app_iff. auto. Qed.
  Lemma mutate_op o : In o (t_ops t) -> In (op_target t o) s.
  Proof. intros I. apply mutate_own, set_of_In, in_app_iff. right. now apply in_map. Qed.
  Lemma mutate_id : t_deploy t <> None -> In (t_id t) s.
  Proof. intros D. apply mutate_own, set_of_In, in_app_iff. left. destruct (t_deploy t); [now left|congruence]. Qed.
  Lemma mutate_closed a : In a s -> a <> t_id t -> incl (g_dep G a) s.
  Proof.
    destruct mutate_parts as (l & CO & ->). intros I NE x Ix. apply set_of_In, in_app_iff. right. apply set_of_In, in_app_iff in I as [I|I].
    - destruct (collect_all _ _ _ CO a I) as (o & F). apply (collect_ok _ _ _ CO). exists a, o. split; auto. split; auto. unfold more in F.
      destruct (addr_eqb_spec a (t_id t)); [contradiction|]. now apply (all_depends_closed _ _ _ _ _ _ _ F).
    - apply (collect_ok _ _ _ CO) in I as (c & o & Ic & F & I). apply (collect_ok _ _ _ CO). exists c, o. split; auto. split; auto. unfold more in F.
      destruct (addr_eqb c (t_id t)).
      + destruct (t_deploy t) as [d|]; [|injection F as <-; destruct I]. destruct (k_exec (dp_contract d)); [|injection F as <-; destruct I].
        exact (proj2 (exec_depends_closed _ _ _ _ _ _ F) a I x Ix).
      + exact (proj2 (all_depends_closed _ _ _ _ _ _ _ F) a I x Ix).
  Qed.
  Lemma mutate_deploy d ex e : t_deploy t = Some d -> k_exec (dp_contract d) = Some ex -> In e (snd ex) -> In (snd e) s.
  Proof.
    intros D X I. destruct mutate_parts as (l & CO & ->). apply set_of_In, in_app_iff. right.
    assert (IO : In (t_id t) own) by (apply set_of_In, in_app_iff; left; rewrite D; now left).
    destruct (collect_all _ _ _ CO _ IO) as (o & F). apply (collect_ok _ _ _ CO). exists (t_id t), o. split; auto. split; auto.
    unfold more in F. rewrite addr_eqb_refl, D, X in F. apply (exec_depends_closed _ _ _ _ _ _ F). now apply in_map.
  Qed.
End MUTATE.

(** ** the context *)
Section CTX.
  Variable G : deps.
  Definition locks (t : tx) : list addr := match mutate_set G t with Some s => s | None => [] end.
  Lemma locks_NoDup t : NoDup (locks t).
  Proof. unfold locks. destruct (mutate_set G t) eqn:M; [exact (mutate_NoDup G t _ M)|constructor]. Qed.
  (** who has locked [a], the last first *)
  Definition holders (a : addr) (l : list tx) : list addr := rev (map t_id (filter (fun t => mem a (locks t)) l)).
  Record ctx_ok (C : context) (l : list tx) : Prop := mk_ctx_ok {
    cx_mutate : forall a, c_mutate C a = holders a l;
    cx_wait : forall x p, In (x, p) (c_wait C) <-> exists l1 t l2 a, l = l1 ++ t :: l2 /\ x = t_id t /\ In a (locks t) /\ hd_error (holders a l1) = Some p;
    cx_signal : forall x, In x (c_signal C) <-> exists t, In t l /\ locks t <> [] /\ x = t_id t }.
  Lemma fold_lock id l : NoDup l -> forall C,
    let C' := fold_left (lock id) l C in
    (forall a, c_mutate C' a = if mem a l then id :: c_mutate C a else c_mutate C a) /\
    (forall x p, In (x, p) (c_wait C') <-> (x = id /\ exists a, In a l /\ hd_error (c_mutate C a) = Some p) \/ In (x, p) (c_wait C)) /\ c_signal C' = c_signal C.
  Proof.
    induction l as [|a l IH]; intros ND C; cbn [fold_left].
    - split; [reflexivity|]. split; [|reflexivity]. intros x p. split; auto. intros [(_ & ? & [] & _)|]; auto.
    - inversion ND as [|? ? NI ND2]; subst. destruct (IH ND2 (lock id C a)) as (H1 & H2 & H3). split; [|split].
      + intros b. rewrite H1. cbn [lock c_mutate]. unfold mem. cbn [existsb]. fold (mem b l). destruct (addr_eqb_spec b a) as [->|NE]; cbn [orb]; auto.
        destruct (mem a l) eqn:M; auto. apply mem_In in M. contradiction.
      + intros x p. rewrite H2. cbn [lock c_mutate c_wait]. split.
        * intros [(-> & b & I & HD)|I].
          -- destruct (addr_eqb_spec b a) as [->|NE]; [contradiction|]. left. split; auto. exists b. split; auto. now right.
          -- destruct (c_mutate C a) as [|q ?] eqn:M; auto. destruct I as [[= <- <-]|I]; auto. left. split; auto. exists a. split; [now left|]. now rewrite M.
        * intros [(-> & b & [<-|I] & HD)|I].
          -- right. destruct (c_mutate C a); [discriminate|]. injection HD as ->. now left.
          -- left. split; auto. exists b. split; auto. destruct (addr_eqb_spec b a) as [->|NE]; [contradiction|auto].
          -- right. destruct (c_mutate C a); auto. now right.
      + now rewrite H3.
  Qed.
  Lemma split_snoc {A} (l : list A) y l1 x l2 : l ++ [y] = l1 ++ x :: l2 -> (l2 = [] /\ l = l1 /\ x = y) \/ exists l3, l2 = l3 ++ [y] /\ l = l1 ++ x :: l3.
  Proof.
    intros E. destruct (exists_last (l := x :: l2)) as (l3 & z & E3); [discriminate|]. rewrite E3, app_assoc in E. apply app_inj_tail in E as (E & <-).
    destruct l3 as [|x' l3]; cbn in E3; injection E3 as <- E3; [left; rewrite app_nil_r in E; auto|right; exists l3; auto].
  Qed.
  Lemma add_locks_ok C l t : ctx_ok C l -> ctx_ok (add_locks C (t_id t) (locks t)) (l ++ [t]).
  Proof.
    intros [H1 H2 H3]. pose proof (fold_lock (t_id t) (locks t) (locks_NoDup t) C) as (K1 & K2 & K3). unfold add_locks. split; cbn [c_mutate c_wait c_signal].
    - intros a. rewrite K1, H1. unfold holders. rewrite filter_app. cbn [filter]. destruct (mem a (locks t)); [|now rewrite app_nil_r]. rewrite map_app, rev_app_distr. reflexivity.
    - intros x p. rewrite K2, H2. split.
      + intros [(-> & a & I & HD)|(l1 & t' & l2 & a & -> & -> & I & HD)].
        * exists l, t, [], a. rewrite <- H1. auto.
        * exists l1, t', (l2 ++ [t]), a. split; [now rewrite <- app_assoc|auto].
      + intros (l1 & t' & l2 & a & E & -> & I & HD). destruct (split_snoc _ _ _ _ _ E) as [(-> & <- & ->)|(l3 & -> & ->)].
        * left. split; auto. exists a. rewrite H1. auto.
        * right. exists l1, t', l3, a. auto.
    - intros x. rewrite K3. assert (Q : (exists t0, In t0 (l ++ [t]) /\ locks t0 <> [] /\ x = t_id t0) <-> (exists t0, In t0 l /\ locks t0 <> [] /\ x = t_id t0) \/ (locks t <> [] /\ x = t_id t)).
      { split.
        - intros (t0 & I & N & ->). apply in_app_iff in I as [I|[<-|[]]]; eauto.
        - intros [(t0 & I & N & ->)|(N & ->)]; [exists t0|exists t]; rewrite in_app_iff; cbn; auto. }
      rewrite Q, <- H3. destruct (locks t); [split; auto; intros [|(N & _)]; [auto|congruence]|]. cbn [In]. split; [intros [<-|I]; auto; right; split; [discriminate|auto]|intros [|(_ & ->)]; auto].
  Qed.
  Lemma prepare_ok l : forall C pre C', ctx_ok C pre -> prepare_all G C l = Some C' -> ctx_ok C' (pre ++ l) /\ Forall (fun t => mutate_set G t = Some (locks t)) l.
  Proof.
    induction l as [|t l IH]; intros C pre C' H; cbn [prepare_all].
    - intros [= <-]. rewrite app_nil_r. auto.
    - destruct (mutate_set G t) as [s|] eqn:M; [|discriminate]. intros E. assert (LT : locks t = s) by (unfold locks; now rewrite M).
      rewrite <- LT in E. destruct (IH _ _ _ (add_locks_ok _ _ t H) E) as (K & F). rewrite <- app_assoc in K. split; auto. constructor; auto. now rewrite M, LT.
  Qed.
  Theorem prepared txs C : prepare_all G context_empty txs = Some C -> ctx_ok C txs /\ Forall (fun t => mutate_set G t = Some (locks t)) txs.
  Proof.
    apply (prepare_ok txs context_empty []). split; cbn.
    - reflexivity.
    - intros x p. split; [intros []|]. intros ([|] & ? & ? & ? & E & _); discriminate.
    - intros x. split; [intros []|]. now intros (? & [] & _).
  Qed.
  Lemma holders_In a l x : In x (holders a l) <-> exists t, In t l /\ In a (locks t) /\ x = t_id t.
  Proof.
    unfold holders. rewrite <- in_rev, in_map_iff. split.
    - intros (t & <- & I). apply filter_In in I as (I & M). apply mem_In in M. eauto.
    - intros (t & I & L & ->). exists t. split; auto. apply filter_In. split; auto. now apply mem_In.
  Qed.
  (** the lock of the code, Node_validate.cpp:475-484 *)
  Lemma locked_iff txs C n t a : ctx_ok C txs -> distinct txs -> In t txs -> n_locked (with_locks C n) t a = true <-> In a (locks t).
  Proof.
    intros H D I. cbn [with_locks n_locked]. rewrite (cx_mutate _ _ H), mem_In, holders_In. split; [|eauto].
    intros (t' & I' & L & E). replace t with t'; auto. unfold distinct in D. clear - D I I' E. induction txs as [|u l IH]; [destruct I|].
    cbn in D. inversion D as [|? ? NI D2]; subst. destruct I as [->|I], I' as [->|I']; auto; exfalso; apply NI; [rewrite E|rewrite <- E]; now apply in_map.
  Qed.
  Lemma calls_ok txs C n t : ctx_ok C txs -> distinct txs -> Forall (fun t => mutate_set G t = Some (locks t)) txs -> depends_ok G n -> In t txs ->
    n_contract n (t_id t) = None -> own_locked (with_locks C n) t /\ calls_locked (with_locks C n) t.
  Proof.
    intros H D F DO I NC. rewrite Forall_forall in F. pose proof (F t I) as MS. split; split.
    - intros o IO. apply (locked_iff _ _ _ _ _ H D I). exact (mutate_op G t _ MS o IO).
    - intros ND. apply (locked_iff _ _ _ _ _ H D I). now apply (mutate_id G t _ MS).
    - intros a k ex LK K X e Ie. apply (locked_iff _ _ _ _ _ H D I). apply (locked_iff _ _ _ _ _ H D I) in LK. cbn in K.
      apply (mutate_closed G t _ MS a LK); [congruence|]. exact (DO a k ex K X e Ie).
    - intros d ex TD X e Ie. apply (locked_iff _ _ _ _ _ H D I). exact (mutate_deploy G t _ MS d ex e TD X Ie).
  Qed.
End CTX.
