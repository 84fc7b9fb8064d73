(** C129: the tokens of a wallet *)
Require Import List Arith NArith Bool Lia.
From Verif Require Import WtlModel WtlSpec.
Import ListNotations.
Open Scope N_scope.

Lemma member_in : forall a l, member a l = true <-> In a l.
Proof. intros a l. unfold member. rewrite existsb_exists. split; [intros [x [H E]]; apply N.eqb_eq in E; now subst|intros H; exists a; split; [easy|apply N.eqb_refl]]. Qed.
Lemma del_in : forall a b l, In b (del a l) <-> In b l /\ b <> a.
Proof. intros a b l. unfold del. rewrite filter_In. now rewrite negb_true_iff, N.eqb_neq. Qed.
Lemma run_snoc : forall d l o, run d (l ++ [o]) = step d (run d l) o.
Proof. intros d l o. unfold run. now rewrite fold_left_app. Qed.
Lemma added_nil : forall a, ~ added [] a.
Proof. intros a [l1 [o [l2 [E _]]]]. now destruct l1. Qed.
Lemma added_snoc : forall l o a, added (l ++ [o]) a <-> adds a o \/ (added l a /\ ~ removes a o).
Proof.
  intros l o a. split.
  - intros [l1 [p [l2 [E [A B]]]]]. destruct l2 as [|y l2 _] using rev_ind.
    + apply app_inj_tail in E. destruct E as [_ <-]. now left.
    + rewrite app_comm_cons, app_assoc in E. apply app_inj_tail in E. destruct E as [-> ->]. right. split.
      * exists l1, p, l2. split; [easy|split; [easy|]]. intros x X. apply B, in_or_app. now left.
      * apply B, in_or_app. right. now left.
  - intros [A|[[l1 [p [l2 [-> [A B]]]]] R]].
    + exists l, o, []. split; [easy|split; [easy|intros x []]].
    + exists l1, p, (l2 ++ [o]). split; [now rewrite <- app_assoc|split; [easy|]]. intros x X. apply in_app_or in X. destruct X as [X|[<-|[]]]; [now apply B|easy].
Qed.
Lemma file_added : forall d l a, In a (file (run d l)) <-> added l a.
Proof.
  intros d l. induction l as [|o l IH] using rev_ind; intros a; [split; [intros []|intros H; now apply added_nil in H]|].
  rewrite run_snoc, added_snoc. unfold adds, removes.
  assert (Y : forall b, In a (add_file b (file (run d l))) <-> b = a \/ added l a).
  { intros b. unfold add_file. cbn [In]. rewrite del_in, IH. destruct (N.eq_dec a b) as [->|N1]; split; intros H; intuition congruence. }
  assert (Z : forall b f, rem_file b (file (run d l)) = Some f -> (In a f <-> added l a /\ a <> b)).
  { intros b f H. unfold rem_file in H. destruct (member b _); [|easy]. injection H as <-. now rewrite del_in, IH. }
  assert (W : forall b, rem_file b (file (run d l)) = None -> ~ added l b).
  { intros b H Q. unfold rem_file in H. apply IH, member_in in Q. now rewrite Q in H. }
  destruct o as [b|b| |b|b]; cbn [step].
  - cbn [add_token file]. rewrite Y. split.
    + intros [->|H]; [now left; left|right]. split; [easy|]. now intros [E|E].
    + intros [[E|E]|[H _]]; [injection E as ->; now left|easy|now right].
  - unfold rem_token. destruct (rem_file b (file (run d l))) as [f|] eqn:F.
    + cbn [file]. rewrite (Z b f F). split.
      * intros [H N1]. right. split; [easy|]. intros [E|E]; [injection E as E; now subst|easy].
      * intros [[E|E]|[H R]]; [easy|easy|]. split; [easy|]. intros ->. apply R. now left.
    + rewrite IH. split.
      * intros H. right. split; [easy|]. intros [E|E]; [|easy]. injection E as ->. now apply (W a F).
      * intros [[E|E]|[H _]]; easy.
  - cbn [start file]. rewrite IH. split; [intros H; right; split; [easy|]; now intros [E|E]|intros [[E|E]|[H _]]; easy].
  - cbn [start file]. rewrite Y. split.
    + intros [->|H]; [now left; right|right]. split; [easy|]. now intros [E|E].
    + intros [[E|E]|[H _]]; [easy|injection E as ->; now left|now right].
  - destruct (rem_file b (file (run d l))) as [f|] eqn:F.
    + cbn [start file]. rewrite (Z b f F). split.
      * intros [H N1]. right. split; [easy|]. intros [E|E]; [easy|injection E as E; now subst].
      * intros [[E|E]|[H R]]; [easy|easy|]. split; [easy|]. intros ->. apply R. now right.
    + cbn [start file]. rewrite IH. split.
      * intros H. right. split; [easy|]. intros [E|E]; [easy|]. injection E as ->. now apply (W a F).
      * intros [[E|E]|[H _]]; easy.
Qed.

(** After a restart, also one in the middle of a call, MMX, the tokens of the config and those added and not removed are shown, and no others *)
Theorem C129_kept : forall defaults l a, In a (mem (run defaults (l ++ [Restart]))) <-> a = 0 \/ In a defaults \/ added l a.
Proof.
  intros d l a. rewrite run_snoc. cbn [step start mem In]. rewrite in_app_iff, file_added. intuition.
Qed.
Print Assumptions C129_kept.

Lemma start_in : forall d f a, In a (mem (start d f)) <-> a = 0 \/ In a d \/ In a f.
Proof. intros d f a. cbn [start mem In]. rewrite in_app_iff. intuition. Qed.

(** At all times MMX and those added and not removed are shown, those of the config unless a removal was asked for, and no others *)
Theorem C129_shown : forall defaults l a,
  (In a (mem (run defaults l)) -> a = 0 \/ In a defaults \/ added l a) /\
  (a = 0 \/ added l a \/ (In a defaults /\ ~ In (Rem a) l) -> In a (mem (run defaults l))).
Proof.
  intros d l. induction l as [|o l IH] using rev_ind; intros a.
  - cbn [run fold_left]. rewrite start_in. split; [intros [H|[H|[]]]; auto|]. intros [H|[H|[H _]]]; [now left|now apply added_nil in H|right; now left].
  - assert (R : run d (l ++ [o]) = start d (file (run d (l ++ [o]))) -> (In a (mem (run d (l ++ [o]))) -> a = 0 \/ In a d \/ added (l ++ [o]) a) /\ (a = 0 \/ added (l ++ [o]) a \/ (In a d /\ ~ In (Rem a) (l ++ [o])) -> In a (mem (run d (l ++ [o]))))).
    { intros E. rewrite E, start_in, file_added. tauto. }
    destruct (IH a) as [I1 I2].
    destruct o as [b|b| |b|b].
    + rewrite run_snoc, added_snoc. cbn [step add_token mem In]. unfold adds, removes. split.
      * intros [->|H]; [right; right; left; now left|]. destruct (I1 H) as [H1|[H1|H1]]; [now left|right; now left|]. right; right; right. split; [easy|now intros [E|E]].
      * intros [H|[[[E|E]|[H _]]|[H N1]]]; [right; apply I2; now left|injection E as ->; now left|easy|right; apply I2; right; now left|].
        right. apply I2. right; right. split; [easy|]. intros Q. apply N1, in_or_app. now left.
    + rewrite run_snoc, added_snoc. cbn [step]. unfold adds, removes, rem_token. destruct (rem_file b (file (run d l))) as [f|] eqn:F.
      * cbn [mem]. split.
        { intros H. assert (H' : In a (mem (run d l)) /\ (a <> b \/ a = 0)) by (destruct (b =? 0) eqn:B; [apply N.eqb_eq in B; split; [easy|]; destruct (N.eq_dec a 0); subst; auto|apply del_in in H; tauto]).
          destruct H' as [H1 H2]. destruct (I1 H1) as [Q|[Q|Q]]; [now left|right; now left|]. destruct H2 as [H2|H2]; [|now left]. right; right; right. split; [easy|]. intros [E|E]; [injection E as E; now subst|easy]. }
        { intros H. assert (H' : In a (mem (run d l)) /\ (a <> b \/ a = 0)).
          { destruct H as [H|[[[E|E]|[H R']]|[H N1]]]; [split; [apply I2; now left|now right]|easy|easy| |].
            - split; [apply I2; right; now left|]. left. intros ->. apply R'. now left.
            - split; [apply I2; right; right; split; [easy|intros Q; apply N1, in_or_app; now left]|]. left. intros ->. apply N1, in_or_app. right. now left. }
          destruct H' as [H1 H2]. destruct (b =? 0) eqn:B; [easy|]. apply N.eqb_neq in B. apply del_in. split; [easy|]. destruct H2 as [H2|H2]; [easy|congruence]. }
      * assert (W : ~ added l b) by (intros Q; unfold rem_file in F; apply (file_added d), member_in in Q; now rewrite Q in F). split.
        { intros H. destruct (I1 H) as [Q|[Q|Q]]; [now left|right; now left|]. right; right; right. split; [easy|]. intros [E|E]; [injection E as E; now subst|easy]. }
        { intros [H|[[[E|E]|[H _]]|[H N1]]]; [apply I2; now left|easy|easy|apply I2; right; now left|]. apply I2. right; right. split; [easy|]. intros Q. apply N1, in_or_app. now left. }
    + apply R. now rewrite run_snoc.
    + apply R. now rewrite run_snoc.
    + apply R. rewrite run_snoc. cbn [step]. now destruct (rem_file b (file (run d l))).
Qed.
Print Assumptions C129_shown.

(** A removal is refused unless the token was added and not removed since; after it the token is not shown *)
Theorem C129_removed : forall defaults l a,
  (rem_token a (run defaults l) <> None <-> added l a) /\
  (forall s, rem_token a (run defaults l) = Some s -> a <> 0 -> ~ In a (mem s) /\ ~ In a (file s) /\ forall b, b <> a -> (In b (mem s) <-> In b (mem (run defaults l)))).
Proof.
  intros d l a. unfold rem_token, rem_file. split.
  - rewrite <- (file_added d), <- member_in. now destruct (member a (file (run d l))).
  - intros s H N0. destruct (member a (file (run d l))); [|easy]. injection H as <-. cbn [mem file]. apply N.eqb_neq in N0. rewrite N0. split; [|split].
    + intros Q. apply del_in in Q. tauto.
    + intros Q. apply del_in in Q. tauto.
    + intros b B. rewrite del_in. tauto.
Qed.
Print Assumptions C129_removed.

(** The list of tokens: MMX and those shown that are tokens on the chain *)
Theorem C129_listed : forall is_token defaults l a, In a (token_list is_token (run defaults l)) <-> a = 0 \/ (In a (mem (run defaults l)) /\ is_token a = true).
Proof. intros f d l a. unfold token_list. cbn [In]. rewrite filter_In. intuition. Qed.
Print Assumptions C129_listed.

(** A removed token comes back with a restart if the config has it *)
Theorem C129_removed_refuted : exists defaults l a, a <> 0 /\ rem_token a (run defaults l) <> None /\
  ~ In a (mem (run defaults (l ++ [Rem a]))) /\ In a (mem (run defaults (l ++ [Rem a; Restart]))).
Proof. exists [5], [Add 5], 5. vm_compute. repeat split; try easy; [intros [H|[]]; discriminate|tauto]. Qed.
Print Assumptions C129_removed_refuted.

(** Cases *)
Example case_added : added [Add 5; Rem 5; Add_stop 5; Restart; Rem 6] 5.
Proof. exists [Add 5; Rem 5], (Add_stop 5), [Restart; Rem 6]. split; [easy|split; [now right|]]. intros x [<-|[<-|[]]] [H|H]; discriminate. Qed.
Example case_shown : mem (run [1; 2] [Add 5; Add 6; Rem 5; Rem 1; Restart]) = [0; 1; 2; 6].
Proof. reflexivity. Qed.
Example case_listed : token_list (fun x => x =? 6) (run [1; 2] [Add 5; Add 6]) = [0; 6].
Proof. reflexivity. Qed.
