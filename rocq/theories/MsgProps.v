(** C127: merging the signatures of several parties *)
Require Import List Arith NArith Bool Lia.
From Verif Require Import PrsModel PrsProofs FrmModel FrmProofs MsgModel MsgSpec.
Import ListNotations.
Open Scope N_scope.

Lemma size_app l m : size (l ++ m) = size l + size m.
Proof. unfold size. rewrite app_length. lia. Qed.
Lemma nth_lt (l : list N) k : k < size l <-> nth_error l (N.to_nat k) <> None.
Proof. rewrite nth_error_Some. unfold size. lia. Qed.
Lemma nth_grow (l e : list N) k x : nth_error l (N.to_nat k) = Some x -> nth_error (l ++ e) (N.to_nat k) = Some x.
Proof. intros H. rewrite nth_error_app1; [exact H|]. apply nth_error_Some. congruence. Qed.

Lemma loop_spec other ours : forall theirs l m r s,
  merge_loop ours theirs other l m = (r, s) -> size l + N.of_nat (length ours) < no_solution ->
  (forall x k, In (x, k) ours -> k < size l \/ k = no_solution) ->
  (forall j n, get j m = Some n -> n < size l /\ nth_error l (N.to_nat n) = nth_error other (N.to_nat j)) ->
  (exists e, s = l ++ e /\ (length e <= length ours)%nat) /\ map fst r = map fst ours /\
  (forall x k, In (x, k) r -> k < size s \/ k = no_solution) /\
  forall i x k, nth_error ours i = Some (x, k) -> exists k', nth_error r i = Some (x, k') /\
    nth_error s (N.to_nat k') = match nth_error l (N.to_nat k) with Some y => Some y | None => match nth_error theirs i with Some (_, j) => nth_error other (N.to_nat j) | None => None end end.
Proof.
  induction ours as [|[x k] ours IH]; intros theirs l m r s E B P M.
  - cbn in E. injection E as <- <-. split; [exists []; split; [now rewrite app_nil_r|easy]|]. split; [easy|]. split; [easy|]. intros i x k H. now destruct i.
  - assert (NS : forall z, size z < no_solution -> nth_error z (N.to_nat no_solution) = None) by (intros z Z; apply nth_error_None; unfold size in Z; lia).
    cbn [length] in B. destruct theirs as [|[y j] theirs].
    + cbn in E. injection E as <- <-. split; [exists []; split; [now rewrite app_nil_r|cbn; lia]|]. split; [easy|]. split; [exact P|]. intros i x' k' H. exists k'. split; [exact H|].
      replace (nth_error (@nil (N * N)) i) with (@None (N * N)) by (now destruct i). now destruct (nth_error l (N.to_nat k')).
    + cbn [merge_loop] in E. change (N.pos (2 ^ 16)) with (2 ^ 16) in E. assert (P' : forall x k, In (x, k) ours -> k < size l \/ k = no_solution) by (intros x' k' H; apply (P x'); now right).
      destruct ((j <? size other) && (size l <=? k)) eqn:C.
      * rewrite andb_true_iff, N.ltb_lt, N.leb_le in C. destruct C as [C1 C2]. assert (NK : nth_error l (N.to_nat k) = None) by (apply nth_error_None; unfold size in C2; lia).
        destruct (get j m) as [n|] eqn:G.
        -- destruct (merge_loop ours theirs other l m) as [r' s'] eqn:E'. injection E as <- <-. destruct (M j n G) as [M1 M2]. destruct (IH theirs l m r' s' E' ltac:(lia) P' M) as [[e [S L]] [F [Q A]]].
           split; [exists e; split; [exact S|cbn; lia]|]. split; [cbn; now rewrite F|]. split.
           ++ intros x' k' [[= <- <-]|H]; [left; rewrite S, size_app; lia|now apply (Q x')].
           ++ intros [|i] x' k' H; [|cbn in H; apply A in H; exact H]. injection H as <- <-. exists n. split; [easy|]. rewrite NK. cbn. rewrite <- M2, S. assert (X : nth_error l (N.to_nat n) <> None) by (now apply nth_lt). destruct (nth_error l (N.to_nat n)) as [w|] eqn:W; [now apply nth_grow|easy].
        -- destruct (merge_loop ours theirs other (l ++ _) _) as [r' s'] eqn:E'. injection E as <- <-. unfold no_solution in *. assert (SL : size l mod 2 ^ 16 = size l) by (apply N.mod_small; lia). assert (SL2 : size l mod N.pos (2 ^ 16) = size l) by exact SL. rewrite ?SL, ?SL2. rewrite ?SL, ?SL2 in E'.
           assert (O1 : nth_error other (N.to_nat j) = Some (nth (N.to_nat j) other 0)) by (apply nth_error_nth'; unfold size in C1; lia).
           assert (O2 : nth_error (l ++ [nth (N.to_nat j) other 0]) (N.to_nat (size l)) = Some (nth (N.to_nat j) other 0)) by (rewrite nth_error_app2; unfold size; rewrite ?Nat2N.id, ?Nat.sub_diag; [reflexivity|lia]).
           assert (SZ : size (l ++ [nth (N.to_nat j) other 0]) = size l + 1) by (now rewrite size_app).
           destruct (IH theirs _ _ r' s' E') as [[e [S L]] [F [Q A]]].
           { rewrite SZ. lia. } { intros x' k' H. rewrite SZ. specialize (P' x' k' H). lia. }
           { intros j' n' G'. rewrite get_put in G'. destruct (N.eqb_spec j j') as [<-|NE].
             - injection G' as <-. rewrite SZ, O1, O2. split; [lia|easy].
             - destruct (M j' n' G') as [M1 M2]. rewrite SZ. split; [lia|]. rewrite <- M2. assert (X : nth_error l (N.to_nat n') <> None) by (now apply nth_lt). destruct (nth_error l (N.to_nat n')) as [w|] eqn:W; [now apply nth_grow|easy]. }
           split; [exists (nth (N.to_nat j) other 0 :: e); split; [rewrite S, <- app_assoc; reflexivity|cbn; lia]|]. split; [cbn; now rewrite F|]. split.
           ++ intros x' k' [[= <- <-]|H]; [left; rewrite S, size_app, SZ; lia|now apply (Q x')].
           ++ intros [|i] x' k' H.
              ** injection H as <- <-. exists (size l). split; [easy|]. rewrite NK. cbn. rewrite O1, S. now apply nth_grow.
              ** cbn in H. pose proof (A i x' k' H) as [k2 [A1 A2]]. exists k2. split; [exact A1|]. rewrite A2. cbn [nth_error]. assert (IK : k' < size l \/ k' = 2 ^ 16 - 1) by (apply (P' x'); now apply nth_error_In in H). destruct IK as [IK| ->].
                 --- apply nth_lt in IK. destruct (nth_error l (N.to_nat k')) as [w|] eqn:W; [now rewrite (nth_grow l _ k' w W)|easy].
                 --- rewrite !NS; [easy|lia|rewrite SZ; lia].
      * destruct (merge_loop ours theirs other l m) as [r' s'] eqn:E'. injection E as <- <-. destruct (IH theirs l m r' s' E' ltac:(lia) P' M) as [[e [S L]] [F [Q A]]].
        split; [exists e; split; [exact S|cbn; lia]|]. split; [cbn; now rewrite F|]. split.
        -- intros x' k' [[= <- <-]|H]; [|now apply (Q x')]. destruct (P x k (or_introl eq_refl)) as [Z|Z]; [left; rewrite S, size_app; lia|now right].
        -- intros [|i] x' k' H; [|cbn in H; apply A in H; exact H]. injection H as <- <-. exists k. split; [easy|]. cbn. destruct (nth_error l (N.to_nat k)) as [w|] eqn:W; [rewrite S; now apply nth_grow|].
           destruct (P x k (or_introl eq_refl)) as [Z| ->]; [now apply nth_lt in Z|]. rewrite NS by (rewrite S, size_app; unfold size at 2; lia).
           apply andb_false_iff in C. rewrite N.ltb_ge, N.leb_gt in C. destruct C as [C|C]; [|lia]. symmetry. apply nth_error_None. unfold size in C. lia.
Qed.

Lemma loop_len other ours : forall theirs l m r s, merge_loop ours theirs other l m = (r, s) -> NoDup (map fst m) -> (forall k, In k (map fst m) -> k < size other) ->
  (length s + length m <= length l + length other)%nat.
Proof.
  assert (Z : forall m : list (N * N), NoDup (map fst m) -> (forall k, In k (map fst m) -> k < size other) -> (length m <= length other)%nat).
  { intros m N B. rewrite <- (map_length fst m). rewrite <- (seq_length (length other) 0), <- (map_length N.of_nat (seq 0 (length other))). apply NoDup_incl_length; [exact N|].
    intros k K. apply B in K. apply in_map_iff. exists (N.to_nat k). split; [lia|]. apply in_seq. unfold size in K. lia. }
  induction ours as [|[x k] ours IH]; intros theirs l m r s E N B; [cbn in E; injection E as <- <-; specialize (Z m N B); lia|].
  destruct theirs as [|[y j] theirs]; [cbn in E; injection E as <- <-; specialize (Z m N B); lia|]. cbn [merge_loop] in E. destruct ((j <? size other) && (size l <=? k)) eqn:C.
  - rewrite andb_true_iff, N.ltb_lt in C. destruct (get j m) as [n|] eqn:G.
    + destruct (merge_loop ours theirs other l m) as [r' s'] eqn:E'. injection E as <- <-. now apply (IH theirs l m r').
    + destruct (merge_loop ours theirs other (l ++ _) _) as [r' s'] eqn:E'. injection E as <- <-. apply IH in E'.
      * assert (D : length (del j m) = length m). { apply get_none in G. clear - G. unfold del. induction m as [|[a b] m IH]; [easy|]. cbn in *. destruct (N.eqb_spec a j) as [->|NE]; [exfalso; apply G; now left|]. cbn. rewrite IH; [easy|]. intros H. apply G. now right. }
        rewrite app_length in E'. cbn [put length] in E'. unfold put in E'. cbn [length] in E'. rewrite D in E'. lia.
      * now apply nodup_put.
      * intros q Q. unfold put in Q. cbn [map fst] in Q. destruct Q as [<-|Q]; [apply C|]. apply key_del in Q. now apply B.
  - destruct (merge_loop ours theirs other l m) as [r' s'] eqn:E'. injection E as <- <-. now apply (IH theirs l m r').
Qed.

(** After merging an input has its own solution if it had one, else that of the other; nothing else changes, and no solution is lost or copied twice *)
Theorem C127_merge : forall a b, proper a -> size (sols a) + N.of_nat (length (inputs a)) < no_solution ->
  let c := merge_sign a b in
  (forall i, (i < length (inputs a))%nat -> solution_of c i = first [solution_of a i; solution_of b i]) /\
  map fst (inputs c) = map fst (inputs a) /\ execute c = execute a /\ (exists e, sols c = sols a ++ e) /\ proper c /\
  (length (sols c) <= length (sols a) + length (inputs a))%nat /\ (length (sols c) <= length (sols a) + length (sols b))%nat.
Proof.
  intros a b P B. unfold merge_sign. destruct (merge_loop (inputs a) (inputs b) (sols b) (sols a) []) as [r s] eqn:E. cbn zeta.
  destruct (loop_spec _ _ _ _ _ _ _ E B P) as [[e [S L]] [F [Q A]]]; [easy|]. cbn [inputs sols execute]. split.
  - intros i Hi. destruct (nth_error (inputs a) i) as [[x k]|] eqn:N; [|apply nth_error_None in N; lia]. destruct (A i x k N) as [k' [A1 A2]]. unfold solution_of. cbn [inputs sols]. rewrite A1, A2, N. cbn [first].
    destruct (nth_error (sols a) (N.to_nat k)); [easy|]. destruct (nth_error (inputs b) i) as [[y j]|]; [|easy]. now destruct (nth_error (sols b) (N.to_nat j)).
  - split; [exact F|]. split; [easy|]. split; [now exists e|]. split; [exact Q|]. split; [rewrite S, app_length; lia|]. pose proof (loop_len _ _ _ _ _ _ _ E (NoDup_nil _) (fun k (H : In k []) => match H with end)) as Z. cbn [length] in Z. lia.
Qed.
Print Assumptions C127_merge.

Lemma signed_iff a : is_signed a = true <-> forall i, (i < length (inputs a))%nat -> solution_of a i <> None.
Proof.
  unfold is_signed, solution_of. rewrite forallb_forall. split.
  - intros H i L. destruct (nth_error (inputs a) i) as [[x k]|] eqn:N; [|apply nth_error_None in N; lia]. apply nth_error_In in N. apply H in N. cbn in N. apply negb_true_iff, N.leb_gt in N. now apply nth_lt.
  - intros H [x k] I. apply In_nth_error in I. destruct I as [i I]. assert (L : (i < length (inputs a))%nat) by (apply nth_error_Some; congruence). specialize (H i L). rewrite I in H. cbn. apply negb_true_iff, N.leb_gt. now apply nth_lt.
Qed.
(** Signatures of any number of parties, merged one after the other: each input has the first solution that some party gave, and the inputs are all signed exactly if each was signed by some party - in whatever order they are merged *)
Theorem C127_parties : forall l a, proper a -> size (sols a) + (N.of_nat (length l) + 1) * N.of_nat (length (inputs a)) < no_solution ->
  let c := fold_left merge_sign l a in
  (forall i, (i < length (inputs a))%nat -> solution_of c i = first (map (fun b => solution_of b i) (a :: l))) /\
  (is_signed c = true <-> forall i, (i < length (inputs a))%nat -> exists b, In b (a :: l) /\ solution_of b i <> None).
Proof.
  intros l a P B c. assert (G : (forall i, (i < length (inputs a))%nat -> solution_of c i = first (map (fun b => solution_of b i) (a :: l))) /\ length (inputs c) = length (inputs a)).
  { unfold c. clear c. revert a P B. induction l as [|b l IH]; intros a P B.
    - split; [|easy]. intros i L. cbn. now destruct (solution_of a i).
    - cbn [fold_left]. destruct (C127_merge a b P ltac:(cbn [length] in B; nia)) as [M1 [M2 [_ [_ [M3 [M4 _]]]]]]. cbn zeta in *. assert (ML : length (inputs (merge_sign a b)) = length (inputs a)) by (rewrite <- (map_length fst), M2; apply map_length).
      destruct (IH (merge_sign a b) M3) as [I1 I2]; [rewrite ML; unfold size in *; cbn [length] in B; nia|]. rewrite ML in *. split; [|exact I2].
      intros i L. rewrite I1 by easy. cbn [map first]. rewrite M1 by easy. cbn [first]. destruct (solution_of a i), (solution_of b i); reflexivity. }
  destruct G as [G1 G2]. split; [exact G1|]. rewrite signed_iff, G2.
  assert (FN : forall q, first q <> None <-> exists x, In (Some x) q).
  { induction q as [|[y|] q IH]; cbn [first In]; [split; [easy|intros [x []]]|split; [intros _; exists y; now left|discriminate]|]. rewrite IH. split; intros [x X]; exists x; [now right|destruct X as [X|X]; [discriminate|exact X]]. }
  split; intros H i L; specialize (H i L).
  - rewrite G1 in H by easy. apply FN in H. destruct H as [x H]. apply in_map_iff in H. destruct H as [b [H1 H2]]. exists b. split; [exact H2|]. congruence.
  - rewrite G1 by easy. apply FN. destruct H as [b [H1 H2]]. destruct (solution_of b i) as [x|] eqn:X; [|easy]. exists x. apply in_map_iff. now exists b.
Qed.
Print Assumptions C127_parties.

(** Signatures of operations are neither merged nor asked for: a transaction of which another party signed the operation stays unsigned there, but counts as signed *)
Theorem C127_operations_refuted : exists a b, proper a /\ proper b /\ inputs a = inputs b /\ map fst (execute a) = map fst (execute b) /\ solution_of_op b 0 <> None /\
  solution_of_op (merge_sign a b) 0 = None /\ execute a <> [] /\ is_signed (merge_sign a b) = true.
Proof.
  exists (mk_tx [(1, 0)] [(7, no_solution)] [50]), (mk_tx [(1, 0)] [(7, 0)] [50]). repeat split; try (vm_compute; (reflexivity || discriminate)).
  - intros x k [[= <- <-]|[]]. left. reflexivity.
  - intros x k [[= <- <-]|[]]. left. reflexivity.
Qed.
Print Assumptions C127_operations_refuted.
(** An input that names a solution that is not there, but is not marked as unsigned, takes the solution of another input *)
Theorem C127_stray_refuted : exists a b, ~ proper a /\ is_signed a = false /\ solution_of a 1 = None /\ solution_of b 1 = Some 61 /\ solution_of (merge_sign a b) 1 = Some 60 /\ is_signed (merge_sign a b) = true.
Proof.
  exists (mk_tx [(1, no_solution); (2, 0)] [] []), (mk_tx [(1, 0); (2, 1)] [] [60; 61]). split; [|repeat split; vm_compute; reflexivity].
  intros P. destruct (P 2 0) as [H|H]; [right; now left|cbn in H; lia|discriminate].
Qed.
Print Assumptions C127_stray_refuted.

(** Cases: three parties, one input each, and one for two of them *)
Definition pa : tx := mk_tx [(1, 0); (2, no_solution); (3, no_solution); (4, no_solution)] [] [50].
Definition pb : tx := mk_tx [(1, no_solution); (2, 0); (3, no_solution); (4, 0)] [] [60].
Definition pc : tx := mk_tx [(1, no_solution); (2, 1); (3, 0); (4, no_solution)] [] [70; 71].
Example ex_parties : fold_left merge_sign [pb; pc] pa = mk_tx [(1, 0); (2, 1); (3, 2); (4, 1)] [] [50; 60; 70] /\ is_signed (fold_left merge_sign [pb; pc] pa) = true /\ is_signed (merge_sign pa pb) = false /\ is_signed (fold_left merge_sign [pa; pb] pc) = true.
Proof. vm_compute. repeat split. Qed.
Example ex_proper : proper pa /\ size (sols pa) + (2 + 1) * N.of_nat (length (inputs pa)) < no_solution.
Proof. split; [|vm_compute; reflexivity]. intros x k H. cbn in H. repeat destruct H as [H|H]; try (injection H as <- <-; (left; reflexivity) || (right; reflexivity)). easy. Qed.
