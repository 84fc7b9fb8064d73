(** Proofs about transactions by id *)
Require Import List Arith NArith Bool Lia.
From Verif Require Import PrsModel PrsProofs FrmModel FrmProofs QtxModel QtxSpec.
Import ListNotations.
Open Scope N_scope.
Set Default Proof Using "Type".

(** ** Chains *)
Inductive wf : list block -> Prop :=
| wf_nil : wf []
| wf_add ch b : wf ch -> next_ok ch b -> wf (ch ++ [b]).
Lemma snoc_inv {A} (l m : list A) x y : l ++ [x] = m ++ [y] -> l = m /\ x = y.
Proof. apply app_inj_tail. Qed.
Lemma firstn_snoc {A} (l : list A) x h : (h <= length l)%nat -> firstn h (l ++ [x]) = firstn h l.
Proof. intros H. rewrite firstn_app. replace (h - length l)%nat with 0%nat by lia. cbn. apply app_nil_r. Qed.
Lemma wf_firstn h ch : wf ch -> wf (firstn h ch).
Proof.
  induction 1 as [|ch b W IH O]; [rewrite firstn_nil; constructor|]. destruct (Nat.le_gt_cases h (length ch)) as [H|H].
  - now rewrite firstn_snoc.
  - rewrite firstn_all2 by (rewrite app_length; cbn; lia). now constructor.
Qed.
Lemma chain_wf l ch : chain l ch -> wf ch.
Proof. induction 1; try constructor; try easy; now apply wf_firstn. Qed.
Lemma next_dec ch b : {next_ok ch b} + {~ next_ok ch b}.
Proof.
  unfold next_ok. destruct (N.eq_dec (k_height b) (N.of_nat (length ch))) as [H|H]; [|right; tauto].
  destruct (ListDec.NoDup_dec N.eq_dec (ids b)) as [D|D]; [|right; tauto].
  destruct (existsb (fun t => existsb (fun c => existsb (N.eqb t) (ids c)) ch) (ids b)) eqn:E.
  - right. intros [_ [_ A]]. apply existsb_exists in E. destruct E as [t [T E]]. apply existsb_exists in E. destruct E as [c [C E]]. apply existsb_exists in E. destruct E as [x [X E]].
    apply N.eqb_eq in E. subst x. apply (A t T). now exists c.
  - left. split; [easy|]. split; [easy|]. intros t T [c [C X]]. enough (existsb (fun t => existsb (fun c => existsb (N.eqb t) (ids c)) ch) (ids b) = true) by congruence.
    apply existsb_exists. exists t. split; [easy|]. apply existsb_exists. exists c. split; [easy|]. apply existsb_exists. exists t. split; [easy|apply N.eqb_refl].
Qed.
Lemma chain_ex l : exists ch, chain l ch.
Proof.
  induction l as [|e l [ch IH]] using rev_ind; [exists []; constructor|]. destruct e as [b|b|h|h j].
  - destruct (next_dec ch b) as [O|O]; [exists (ch ++ [b]); exact (ch_add l b ch IH O)|exists ch; exact (ch_not l b ch IH O)].
  - exists ch. exact (ch_side l b ch IH).
  - exists (firstn h ch). exact (ch_revert l h ch IH).
  - exists (firstn h ch). exact (ch_crash l h j ch IH).
Qed.
Lemma chain_snoc l e ch' : chain (l ++ [e]) ch' -> exists ch, chain l ch /\
  match e with Apply b => next_ok ch b /\ ch' = ch ++ [b] \/ ~ next_ok ch b /\ ch' = ch | Side _ => ch' = ch | Revert h | Crash h _ => ch' = firstn h ch end.
Proof.
  remember (l ++ [e]) as m eqn:M. intros H. destruct H as [|k b ch C O|k b ch C O|k b ch C|k h ch C|k h j ch C].
  - now destruct l.
  - apply snoc_inv in M. destruct M as [-> <-]. exists ch. split; [easy|]. now left.
  - apply snoc_inv in M. destruct M as [-> <-]. exists ch. split; [easy|]. now right.
  - apply snoc_inv in M. destruct M as [-> <-]. now exists ch.
  - apply snoc_inv in M. destruct M as [-> <-]. now exists ch.
  - apply snoc_inv in M. destruct M as [-> <-]. now exists ch.
Qed.
Lemma chain_fun l : forall ch ch', chain l ch -> chain l ch' -> ch = ch'.
Proof.
  induction l as [|e l IH] using rev_ind; intros ch ch' C D.
  - assert (N : forall m c, chain m c -> m = [] -> c = []) by (intros m c H; destruct H; intros E; try easy; now destruct l). rewrite (N _ _ C eq_refl), (N _ _ D eq_refl). reflexivity.
  - apply chain_snoc in C. apply chain_snoc in D. destruct C as [c [C1 C2]], D as [d [D1 D2]]. assert (c = d) by (now apply IH). subst d.
    destruct e as [b|b|h|h j]; [|congruence..]. destruct C2 as [[O ->]|[O ->]], D2 as [[P ->]|[P ->]]; easy.
Qed.

Lemma wf_height ch : wf ch -> forall i b, nth_error ch i = Some b -> k_height b = N.of_nat i.
Proof.
  induction 1 as [|ch b W IH O]; intros i c H; [now destruct i|]. destruct (Nat.lt_ge_cases i (length ch)) as [L|L].
  - rewrite nth_error_app1 in H by easy. now apply IH.
  - rewrite nth_error_app2 in H by easy. destruct (i - length ch)%nat as [|j] eqn:E; cbn in H; [|now destruct j].
    injection H as <-. destruct O as [-> _]. f_equal. lia.
Qed.
Lemma wf_unique ch : wf ch -> forall a b s t, In a ch -> In b ch -> In s (k_txs a) -> In t (k_txs b) -> t_id s = t_id t -> a = b /\ s = t.
Proof.
  induction 1 as [|ch b W IH [_ [D O]]]; [easy|]. intros x y s t X Y S T E. apply in_app_iff in X, Y.
  assert (G : forall u v, In u (k_txs b) -> In v (k_txs b) -> t_id u = t_id v -> u = v).
  { unfold ids in D. clear -D. induction (k_txs b) as [|z r IH]; [easy|]. cbn in D. inversion D as [|? ? D1 D2]; subst. intros u v [->|U] [->|V] E.
    - easy.
    - exfalso. apply D1. rewrite E. now apply in_map.
    - exfalso. apply D1. rewrite <- E. now apply in_map.
    - now apply IH. }
  destruct X as [X|[->|[]]], Y as [Y|[->|[]]].
  - now apply IH.
  - exfalso. apply (O (t_id t)); [now apply in_map|]. exists x. split; [easy|]. rewrite <- E. now apply in_map.
  - exfalso. apply (O (t_id s)); [now apply in_map|]. exists y. split; [easy|]. rewrite E. now apply in_map.
  - split; [easy|now apply G].
Qed.

(** ** Tables *)
Definition log_of (ch : list block) : list (N * list N) := flat_map (fun b => match ids b with [] => [] | _ => [(k_height b, ids b)] end) ch.
Record rep (f : list rec) (ch : list block) (T : tables) : Prop := {
  rp_some : forall id p, get id (tx_index T) = Some p -> exists b t, In b ch /\ In t (k_txs b) /\ t_id t = id /\ x_height p = k_height b /\ x_time p = k_time b /\ nth_error f (x_offset p) = Some (Tx t);
  rp_all : forall b t, In b ch -> In t (k_txs b) -> get (t_id t) (tx_index T) <> None;
  rp_log : tx_log T = log_of ch;
  rp_map : height_map T = map (fun b => (k_height b, k_hash b)) ch }.
Inductive versions (f : list rec) : list tables -> list block -> Prop :=
| vr_nil T : rep f [] T -> versions f [T] []
| vr_add T vs ch b : versions f vs ch -> rep f (ch ++ [b]) T -> versions f (T :: vs) (ch ++ [b]).
Lemma vr_len f vs ch : versions f vs ch -> length vs = S (length ch).
Proof. induction 1; [easy|]. rewrite app_length. cbn. lia. Qed.
Lemma vr_skip f vs ch h : versions f vs ch -> versions f (skipn (length vs - S h) vs) (firstn h ch).
Proof.
  induction 1 as [T R|T vs ch b V IH R].
  - rewrite firstn_nil. cbn. now constructor.
  - pose proof (vr_len _ _ _ V) as L. destruct (Nat.le_gt_cases h (length ch)) as [H|H].
    + rewrite firstn_snoc by easy. cbn [length]. replace (S (length vs) - S h)%nat with (S (length vs - S h)) by lia. exact IH.
    + rewrite firstn_all2 by (rewrite app_length; cbn; lia). cbn [length]. replace (S (length vs) - S h)%nat with 0%nat by lia. now constructor.
Qed.
Lemma rep_grow f x ch T : rep f ch T -> rep (f ++ x) ch T.
Proof.
  intros [A B C D]. split; try easy. intros id p H. destruct (A id p H) as [b [t [H1 [H2 [H3 [H4 [H5 H6]]]]]]]. exists b, t. repeat (split; [easy|]).
  rewrite nth_error_app1; [easy|]. apply nth_error_Some. congruence.
Qed.
Lemma vr_grow f x vs ch : versions f vs ch -> versions (f ++ x) vs ch.
Proof. induction 1; constructor; try easy; now apply rep_grow. Qed.
Lemma vr_cur f n ch : versions f (vers n) ch -> rep f ch (cur n).
Proof. unfold cur. now inversion 1. Qed.

(** ** The file *)
Definition put_in (s : nat) (l : list txn) : list (nat * txn) := combine (seq s (length l)) l.
Lemma read_put l s post : read_txs s (map Tx l ++ End :: post) = Some (put_in s l).
Proof. revert s. induction l as [|t l IH]; intros s; [easy|]. cbn. rewrite IH. reflexivity. Qed.
Lemma put_snd s l : map snd (put_in s l) = l.
Proof. unfold put_in. revert s. induction l as [|t l IH]; intros s; [easy|]. cbn. now rewrite IH. Qed.
Lemma put_len s l : length (put_in s l) = length l.
Proof. unfold put_in. rewrite combine_length, seq_length. lia. Qed.
Lemma put_again s l : combine (map fst (put_in s l)) l = put_in s l.
Proof. unfold put_in. revert s. induction l as [|t l IH]; intros s; [easy|]. cbn. now rewrite IH. Qed.
Lemma put_nth s l o t : In (o, t) (put_in s l) -> (s <= o)%nat /\ nth_error l (o - s) = Some t.
Proof.
  unfold put_in. revert s. induction l as [|u l IH]; intros s; [easy|]. cbn. intros [[= <- <-]|H].
  - split; [lia|]. now rewrite Nat.sub_diag.
  - apply IH in H. destruct H as [H1 H2]. split; [lia|]. replace (o - s)%nat with (S (o - S s)) by lia. exact H2.
Qed.
Definition holds (f : list rec) (o : nat) (b : block) : Prop := exists pre post, f = pre ++ Head b :: map Tx (k_txs b) ++ End :: post /\ length pre = o.
Lemma holds_grow f x o b : holds f o b -> holds (f ++ x) o b.
Proof. intros [pre [post [-> L]]]. exists pre, (post ++ x). split; [|easy]. rewrite <- app_assoc. cbn. now rewrite <- app_assoc. Qed.
Lemma holds_read f o b : holds f o b -> read_block o f = Some (b, put_in (S o) (k_txs b)).
Proof. intros [pre [post [-> L]]]. unfold read_block. subst o. rewrite skipn_app, skipn_all, Nat.sub_diag. cbn. now rewrite read_put. Qed.
Lemma holds_nth f o b i t : holds f o b -> In (i, t) (put_in (S o) (k_txs b)) -> nth_error f i = Some (Tx t).
Proof.
  intros [pre [post [-> L]]] H. apply put_nth in H. destruct H as [H1 H2]. rewrite nth_error_app2 by lia. replace (i - length pre)%nat with (S (i - S o)) by lia. cbn.
  rewrite nth_error_app1 by (rewrite map_length; apply nth_error_Some; congruence). now apply map_nth_error.
Qed.

Section NODE.
  Variable is_valid : block -> list txn -> bool.
  Notation write_block := (write_block is_valid).
  Definition indexed (seen : list block) (n : node) : Prop := forall h o, get h (index n) = Some o -> exists b, In b seen /\ k_hash b = h /\ holds (file n) o b.
  Definition good (seen : list block) : Prop :=
    (forall b, In b seen -> is_valid b (k_txs b) = true) /\ forall a b, In a seen -> In b seen -> k_hash a = k_hash b -> a = b.

  Lemma write_ok seen b main n T n' T' : good seen -> In b seen -> indexed seen n -> write_block b main n T = (n', T') ->
    vers n' = vers n /\ indexed seen n' /\ (exists x, file n' = file n ++ x) /\
    exists s, holds (file n') s b /\ T' = if main then add_index b (put_in (S s) (k_txs b)) T else T.
  Proof.
    intros [G1 G2] B I W.
    assert (A : append b main n T = (n', T') -> get (k_hash b) (index n) = None -> vers n' = vers n /\ indexed seen n' /\ (exists x, file n' = file n ++ x) /\
      exists s, holds (file n') s b /\ T' = if main then add_index b (put_in (S s) (k_txs b)) T else T).
    { unfold append. intros [= <- <-] _. cbn [vers file index].
      assert (H : holds (file n ++ Head b :: map Tx (k_txs b) ++ [End]) (length (file n)) b) by (exists (file n), []; easy).
      split; [easy|]. split.
      - intros h o E. cbn [index file] in *. rewrite get_put in E. destruct (N.eqb_spec (k_hash b) h) as [<-|N].
        + injection E as <-. now exists b.
        + destruct (I h o E) as [c [C1 [C2 C3]]]. exists c. split; [easy|]. split; [easy|]. now apply holds_grow.
      - split; [eexists; reflexivity|]. exists (length (file n)). split; [easy|reflexivity]. }
    unfold QtxModel.write_block in W. destruct (get (k_hash b) (index n)) as [o|] eqn:E; [|now apply A].
    destruct (I _ _ E) as [c [C1 [C2 C3]]]. assert (c = b) by (now apply G2). subst c. rewrite (holds_read _ _ _ C3) in W.
    rewrite put_snd, put_len, Nat.eqb_refl, (G1 b B), put_again in W. cbn in W. injection W as <- <-.
    split; [easy|]. split; [easy|]. split; [exists []; now rewrite app_nil_r|]. now exists o.
  Qed.

  Lemma index_some b m T id p : get id (add_index b m T) = Some p ->
    (exists o t, In (o, t) m /\ t_id t = id /\ p = mk_place (k_height b) (k_time b) o) \/ get id T = Some p.
  Proof.
    unfold add_index. revert T. induction m as [|[o t] m IH]; intros T H; [now right|]. cbn [fold_left] in H. apply IH in H. destruct H as [[o' [t' [H1 H2]]]|H].
    - left. exists o', t'. split; [now right|easy].
    - cbn [snd fst] in H. rewrite get_put in H. destruct (N.eqb_spec (t_id t) id) as [E|N]; [|now right]. injection H as <-. left. exists o, t. split; [now left|easy].
  Qed.
  Lemma index_old b m T id : get id T <> None -> get id (add_index b m T) <> None.
  Proof.
    unfold add_index. revert T. induction m as [|[o t] m IH]; intros T H; [easy|]. cbn [fold_left]. apply IH. cbn [snd fst]. rewrite get_put. now destruct (t_id t =? id).
  Qed.
  Lemma index_new b m T o t : In (o, t) m -> get (t_id t) (add_index b m T) <> None.
  Proof.
    revert T. induction m as [|[o' t'] m IH]; intros T; [easy|]. intros [[= -> ->]|H].
    - unfold add_index. cbn [fold_left snd fst]. apply (index_old b m). rewrite get_put, N.eqb_refl. discriminate.
    - apply (IH _ H).
  Qed.

  Lemma ins_last {V} k (v : V) l : (forall a, In a (map fst l) -> a < k) -> ins k v l = l ++ [(k, v)].
  Proof.
    induction l as [|[a w] l IH]; intros H; [easy|]. cbn. assert (a < k) by (apply H; now left).
    destruct (N.ltb_spec k a); [lia|]. destruct (N.eqb_spec k a); [lia|]. rewrite IH; [easy|]. intros x X. apply H. now right.
  Qed.
  Lemma wf_in ch b : wf ch -> In b ch -> k_height b < N.of_nat (length ch).
  Proof. intros W H. apply In_nth_error in H. destruct H as [i H]. rewrite (wf_height ch W i b H). assert (i < length ch)%nat by (apply nth_error_Some; congruence). lia. Qed.
  Lemma log_keys ch a : In a (map fst (log_of ch)) -> exists b, In b ch /\ k_height b = a.
  Proof.
    intros H. apply in_map_iff in H. destruct H as [[h l] [<- H]]. unfold log_of in H. apply in_flat_map in H. destruct H as [b [B H]].
    destruct (ids b); [easy|]. destruct H as [H|[]]. injection H as <- <-. now exists b.
  Qed.

  Lemma nodupb_ok l : nodupb l = true <-> NoDup l.
  Proof.
    induction l as [|x l IH]; cbn; [split; [constructor|easy]|]. rewrite andb_true_iff, negb_true_iff, IH. split.
    - intros [A B]. constructor; [|easy]. intros H. assert (existsb (N.eqb x) l = true) by (apply existsb_exists; exists x; split; [easy|apply N.eqb_refl]). congruence.
    - intros H. inversion H as [|? ? A B]; subst. split; [|easy]. destruct (existsb (N.eqb x) l) eqn:E; [|easy]. apply existsb_exists in E. destruct E as [y [Y E]]. apply N.eqb_eq in E. now subst.
  Qed.
  Lemma fresh_ok n ch b : versions (file n) (vers n) ch -> (k_height b =? N.of_nat (length (vers n)) - 1) && fresh b n = true <-> next_ok ch b.
  Proof.
    intros V. pose proof (vr_cur _ _ _ V) as [R1 R2 _ _]. pose proof (vr_len _ _ _ V) as L. rewrite L. unfold fresh, next_ok. rewrite !andb_true_iff, N.eqb_eq, nodupb_ok, forallb_forall.
    replace (N.of_nat (S (length ch)) - 1) with (N.of_nat (length ch)) by lia. split.
    - intros [A [B C]]. split; [easy|]. split; [easy|]. intros x X [c [C1 C2]]. apply in_map_iff in X. destruct X as [t [<- X]]. apply C in X.
      apply in_map_iff in C2. destruct C2 as [u [U1 U2]]. apply (R2 c u C1 U2). rewrite U1. now destruct (get (t_id t) (tx_index (cur n))).
    - intros [A [B C]]. split; [easy|]. split; [easy|]. intros t H. destruct (get (t_id t) (tx_index (cur n))) as [p|] eqn:E; [|easy]. exfalso.
      destruct (R1 _ _ E) as [c [u [U1 [U2 [U3 _]]]]]. apply (C (t_id t)); [now apply in_map|]. exists c. split; [easy|]. rewrite <- U3. now apply in_map.
  Qed.

  Definition inv (seen : list block) (n : node) (ch : list block) : Prop := versions (file n) (vers n) ch /\ indexed seen n /\ wf ch.
  Lemma apply_add seen n ch b : good seen -> In b seen -> inv seen n ch -> next_ok ch b -> inv seen (QtxModel.apply is_valid b n) (ch ++ [b]).
  Proof.
    intros G B [V [I W]] O. unfold QtxModel.apply. rewrite (proj2 (fresh_ok n ch b V) O). cbn zeta.
    destruct (QtxModel.write_block is_valid b true n (tx_index (cur n))) as [n' idx] eqn:E.
    destruct (write_ok seen b true n _ n' idx G B I E) as [E1 [E2 [[x E3] [s [E4 E5]]]]]. rewrite E1. split; [|split; [exact E2|now constructor]]. cbn [file vers].
    pose proof (vr_cur _ _ _ V) as R. apply (rep_grow _ x) in R. rewrite <- E3 in R. constructor; [rewrite E3; now apply vr_grow|].
    destruct R as [R1 R2 R3 R4]. assert (H : k_height b = N.of_nat (length ch)) by apply O. split; cbn [tx_index tx_log height_map].
    - intros id p P. rewrite E5 in P. apply index_some in P. destruct P as [[o [t [P1 [P2 P3]]]]|P].
      + exists b, t. split; [apply in_app_iff; right; now left|]. split; [rewrite <- (put_snd (S s)); apply in_map_iff; now exists (o, t)|]. split; [easy|]. subst p. cbn [x_height x_time x_offset].
        repeat (split; [easy|]). now apply (holds_nth _ s b).
      + destruct (R1 id p P) as [c [t [P1 P2]]]. exists c, t. split; [apply in_app_iff; now left|easy].
    - intros c t C T. rewrite E5. apply in_app_iff in C. destruct C as [C|[<-|[]]]; [apply index_old; now apply (R2 c)|].
      rewrite <- (put_snd (S s)) in T. apply in_map_iff in T. destruct T as [[o u] [T1 T2]]. cbn in T1. subst u. now apply (index_new b _ _ o).
    - unfold log_of. rewrite flat_map_app. fold (log_of ch). rewrite <- R3. cbn [flat_map]. fold (ids b). destruct (ids b) as [|i r] eqn:D; [now rewrite !app_nil_r|].
      rewrite ins_last; [easy|]. rewrite R3. intros a A. apply log_keys in A. destruct A as [c [C <-]]. rewrite H. now apply wf_in.
    - rewrite R4, map_app. cbn [map]. apply ins_last. intros a A. rewrite map_map in A. cbn in A. apply in_map_iff in A. destruct A as [c [<- C]]. rewrite H. now apply wf_in.
  Qed.
  Lemma apply_not seen n ch b : inv seen n ch -> ~ next_ok ch b -> QtxModel.apply is_valid b n = n.
  Proof. intros [V _] O. unfold QtxModel.apply. destruct (_ && _) eqn:E; [|easy]. now apply (fresh_ok n ch b V) in E. Qed.
  Lemma side_inv seen n ch b : good seen -> In b seen -> inv seen n ch -> inv seen (QtxModel.side is_valid b n) ch.
  Proof.
    intros G B [V [I W]]. unfold QtxModel.side. destruct (QtxModel.write_block is_valid b false n (tx_index (cur n))) as [n' idx] eqn:E.
    destruct (write_ok seen b false n _ n' idx G B I E) as [E1 [E2 [[x E3] [s [_ E5]]]]].
    assert (F : set_index idx n' = n'). { unfold set_index, cur in *. rewrite E5, E1. destruct n' as [vs' f' i']. cbn [vers file index] in *. subst vs'. destruct (vers n) as [|[a b' c] r]; reflexivity. }
    rewrite F. split; [|now split]. rewrite E1, E3. now apply vr_grow.
  Qed.
  Lemma revert_inv seen n ch h : inv seen n ch -> inv seen (revert h n) (firstn h ch).
  Proof. intros [V [I W]]. split; [now apply vr_skip|]. split; [exact I|now apply wf_firstn]. Qed.
  Lemma crash_inv seen n ch h j : inv seen n ch -> inv seen (crash h j n) (firstn h ch).
  Proof.
    intros H. apply (revert_inv seen n ch h) in H. destruct H as [V [I W]]. split; [now apply vr_grow|]. split; [|easy].
    intros x o E. destruct (I x o E) as [b [B1 [B2 B3]]]. exists b. split; [easy|]. split; [easy|]. now apply holds_grow.
  Qed.

  Lemma blocks_app l m : blocks (l ++ m) = blocks l ++ blocks m.
  Proof. induction l as [|[b|b|h|h j] l IH]; cbn; congruence. Qed.
  Lemma run_inv seen l ch : good seen -> (forall b, In b (blocks l) -> In b seen) -> chain l ch -> inv seen (run is_valid l) ch.
  Proof.
    intros G S C. induction C as [|l b ch C IH O|l b ch C IH O|l b ch C IH|l h ch C IH|l h j ch C IH].
    - split; [|split; [easy|constructor]]. constructor. split; easy.
    - unfold run. rewrite fold_left_app. cbn [fold_left step]. rewrite blocks_app in S. apply apply_add; [easy|apply S, in_app_iff; right; now left|apply IH|easy]. intros x X. apply S, in_app_iff. now left.
    - unfold run. rewrite fold_left_app. cbn [fold_left step]. rewrite blocks_app in S. assert (J : inv seen (run is_valid l) ch) by (apply IH; intros x X; apply S, in_app_iff; now left).
      fold (run is_valid l). rewrite (apply_not seen _ ch b J O). exact J.
    - unfold run. rewrite fold_left_app. cbn [fold_left step]. rewrite blocks_app in S. apply side_inv; [easy|apply S, in_app_iff; right; now left|apply IH]. intros x X. apply S, in_app_iff. now left.
    - unfold run. rewrite fold_left_app. cbn [fold_left step]. rewrite blocks_app in S. apply revert_inv. apply IH. intros x X. apply S, in_app_iff. now left.
    - unfold run. rewrite fold_left_app. cbn [fold_left step]. rewrite blocks_app in S. apply crash_inv. apply IH. intros x X. apply S, in_app_iff. now left.
  Qed.
End NODE.

(** ** Queries *)
Lemma take_ok limit l out : (length out <= limit)%nat -> take_ids limit l out = (firstn limit (out ++ l), (length (out ++ l) <? limit)%nat).
Proof.
  revert out. induction l as [|x l IH]; intros out H; cbn [take_ids].
  - rewrite app_nil_r, firstn_all2; easy.
  - destruct (Nat.ltb_spec (length out) limit) as [L|L].
    + rewrite IH by (rewrite app_length; cbn; lia). now rewrite <- app_assoc.
    + assert (E : length out = limit) by lia. rewrite firstn_app, E, Nat.sub_diag, firstn_all2 by lia. cbn. rewrite app_nil_r. f_equal. symmetry. apply Nat.ltb_ge. rewrite app_length. lia.
Qed.
Lemma scan_ok limit l out : (length out <= limit)%nat -> scan_ids limit l out = firstn limit (out ++ concat (map snd l)).
Proof.
  revert out. induction l as [|[h x] l IH]; intros out H; cbn [scan_ids map concat].
  - rewrite app_nil_r, firstn_all2; easy.
  - rewrite take_ok by easy. cbn [snd]. destruct (Nat.ltb_spec (length (out ++ x)) limit) as [L|L].
    + rewrite IH by (rewrite firstn_length; lia). assert (E : firstn limit (out ++ x) = out ++ x) by (apply firstn_all2; lia). rewrite E. now rewrite <- app_assoc.
    + rewrite (app_assoc out x), (firstn_app _ (out ++ x)). replace (limit - length (out ++ x))%nat with 0%nat by lia. cbn. now rewrite app_nil_r.
Qed.
Lemma log_concat ch : concat (map snd (log_of ch)) = concat (map ids ch).
Proof. induction ch as [|b ch IH]; [easy|]. unfold log_of in *. cbn [flat_map map concat]. rewrite map_app, concat_app, IH. f_equal. destruct (ids b); [easy|]. cbn. now rewrite app_nil_r. Qed.
Lemma log_rev ch : rev (log_of ch) = log_of (rev ch).
Proof.
  induction ch as [|b ch IH]; [easy|]. cbn [rev]. unfold log_of in *. rewrite flat_map_app. cbn [flat_map]. rewrite rev_app_distr, IH, app_nil_r. f_equal. now destruct (ids b).
Qed.
Lemma log_since ch h : filter (fun e => h <=? fst e) (log_of ch) = log_of (filter (fun b => h <=? k_height b) ch).
Proof.
  induction ch as [|b ch IH]; [easy|]. unfold log_of in *. cbn [flat_map filter]. rewrite filter_app, IH. destruct (ids b) as [|i r] eqn:E; destruct (h <=? k_height b) eqn:F; cbn [filter fst app flat_map]; rewrite ?E, ?F; reflexivity.
Qed.
Lemma since_skip ch h : wf ch -> filter (fun b => h <=? k_height b) ch = skipn (N.to_nat h) ch.
Proof.
  induction 1 as [|ch b W IH [O _]]; [now rewrite skipn_nil|]. rewrite filter_app, IH, skipn_app. f_equal. cbn. rewrite O.
  destruct (N.leb_spec h (N.of_nat (length ch))) as [L|L].
  - now replace (N.to_nat h - length ch)%nat with 0%nat by lia.
  - destruct (N.to_nat h - length ch)%nat eqn:E; [lia|]. cbn. now destruct n.
Qed.
Lemma get_app {V} k (l m : list (N * V)) : get k (l ++ m) = match get k l with Some v => Some v | None => get k m end.
Proof. unfold get. induction l as [|[a v] l IH]; [easy|]. cbn. now destruct (a =? k). Qed.
Lemma get_one {V} h k (v : V) : get h ([(k, v)] ++ []) = if k =? h then Some v else None.
Proof. unfold get. cbn. now destruct (k =? h). Qed.
Lemma get_log ch h : wf ch -> match get h (log_of ch) with Some l => l | None => [] end = match nth_error ch (N.to_nat h) with Some b => ids b | None => [] end.
Proof.
  induction 1 as [|ch b W IH [O _]]; [now destruct (N.to_nat h)|]. unfold log_of. rewrite flat_map_app. fold (log_of ch). rewrite get_app.
  destruct (Nat.lt_ge_cases (N.to_nat h) (length ch)) as [L|L].
  - rewrite nth_error_app1 by easy. rewrite <- IH. destruct (get h (log_of ch)); [easy|]. cbn [flat_map]. destruct (ids b); [easy|]. rewrite get_one, O. destruct (N.eqb_spec (N.of_nat (length ch)) h); [lia|easy].
  - assert (E : get h (log_of ch) = None). { apply get_none. intros A. apply log_keys in A. destruct A as [c [C A]]. apply (wf_in ch c W) in C. lia. }
    rewrite E, nth_error_app2 by easy. cbn [flat_map]. destruct (N.to_nat h - length ch)%nat as [|i] eqn:D; cbn [nth_error].
    + destruct (ids b); [easy|]. rewrite get_one, O. destruct (N.eqb_spec (N.of_nat (length ch)) h); [easy|lia].
    + destruct (ids b); [now destruct i|]. rewrite get_one, O. destruct (N.eqb_spec (N.of_nat (length ch)) h); [lia|now destruct i].
Qed.
Lemma get_hash ch b : wf ch -> In b ch -> get (k_height b) (map (fun b => (k_height b, k_hash b)) ch) = Some (k_hash b).
Proof.
  intros W. induction W as [|ch c W IH O]; [easy|]. intros H. rewrite map_app, get_app. apply in_app_iff in H. destruct H as [H|[<-|[]]]; [now rewrite (IH H)|].
  destruct (get (k_height c) (map _ ch)) eqn:E; [|cbn; unfold get; cbn; now rewrite N.eqb_refl]. exfalso. apply get_in in E. apply in_map_iff in E. destruct E as [d [E D]]. injection E as E _. apply (wf_in ch d W) in D. destruct O as [O _]. lia.
Qed.
