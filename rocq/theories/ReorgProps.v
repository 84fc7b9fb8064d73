(** C74: a reorganisation leaves no trace.  C75: a reorganisation that fails leaves the node on the chain it was on. *)
Require Import List Arith NArith Bool Lia.
Import ListNotations.
From Verif Require Import DbModel DbSpec ReorgModel ReorgSpec ReorgProofs ReorgInvProofs ReorgRunProofs ReorgBackProofs ReorgDeepProofs ReorgEndProofs ReorgStepProofs.
Open Scope N_scope.

(** the state of the node after its first start and the operations [l]; [None]: it did not start, or did not start again *)
Definition after {K V C} K_eqb (valid : view K V -> block -> option C) effects genesis commit_delay (l : list op) : option (node K V C) :=
  match node0 K V C K_eqb effects genesis commit_delay with
  | Some n => run K V C K_eqb valid effects genesis commit_delay n l
  | None => None
  end.

Section PROPS.
  Context {K V C : Type} (K_eqb : K -> K -> bool).
  Variable valid : view K V -> block -> option C.
  Variable effects : view K V -> block -> option C -> list (K * V).
  Variable genesis : block.
  Variable commit_delay : N.
  Notation after := (after K_eqb valid effects genesis commit_delay).
  Notation step := (step K V C K_eqb valid effects genesis commit_delay).
  Notation chain := (chain K_eqb valid effects genesis).
  Notation scratch := (scratch K_eqb valid effects).
  Notation n_state := (n_state K V C).
  Notation n_db := (n_db K V C).
  Notation n_rank := (n_rank K V C).
  Notation n_root := (n_root K V C).

  Lemma after_ok U l : good_blocks U genesis -> arrive U l -> exists n, after l = Some n /\ ok K_eqb valid effects genesis U n.
  Proof.
    intros G A. destruct (node0_ok K_eqb valid effects genesis commit_delay U G) as (n0 & E & O & _). unfold ReorgProps.after. rewrite E. eapply run_ok; eauto.
  Qed.
  Lemma after_full U l n : good_blocks U genesis -> honest U -> arrive U l -> after l = Some n -> exists ch, full K_eqb valid effects genesis U n ch.
  Proof.
    intros G H A E. unfold ReorgProps.after in E. destruct (node0 _ _ _ _ _ _ _) as [n0|] eqn:E0; [|discriminate].
    apply (run_fine K_eqb valid effects genesis commit_delay U G H l n0 n); auto. eapply node0_fine; eauto.
  Qed.

  (** Whatever blocks arrive in whatever order, valid or not, whichever forks are tried, at whatever moment the process ends and whatever version the tables are found at:
      the node always starts again and no operation breaks it. *)
  Theorem C74_alive : forall U l, good_blocks U genesis -> arrive U l -> exists n, after l = Some n.
  Proof. intros U l G A. destruct (after_ok U l G A) as (n & E & _). eauto. Qed.

  (** Its tables are exactly those of one chain of valid blocks applied to empty tables, the chain that ends with its current state, and so is its ranking of farmers. *)
  Theorem C74_chain : forall U l n, good_blocks U genesis -> arrive U l -> after l = Some n ->
    exists ch, chain ch /\ Forall U ch /\ n_state n = top_hash ch /\ n_db n = scratch ch /\ forall k, rank_of k (n_rank n) = blocks_by k ch.
  Proof.
    intros U l n G A E. destruct (after_ok U l G A) as (n' & E' & ch & NE & J). assert (n' = n) by congruence. subst n'. exists ch.
    destruct J as (B & T1 & T2). destruct (B_chain _ _ _ _ _ _ _ B) as (X & F). split; auto. split; auto. split; auto. split; [apply B|exact T2].
  Qed.

  (** Two nodes on the same block have the same tables and the same ranking, whatever each went through before. *)
  Theorem C74_no_trace : forall U l1 l2 n1 n2, good_blocks U genesis -> arrive U l1 -> arrive U l2 -> after l1 = Some n1 -> after l2 = Some n2 ->
    n_state n1 = n_state n2 -> n_db n1 = n_db n2 /\ forall k, rank_of k (n_rank n1) = rank_of k (n_rank n2).
  Proof.
    intros U l1 l2 n1 n2 G A1 A2 E1 E2 S. destruct (after_ok U l1 G A1) as (n1' & E1' & ch1 & NE1 & J1). destruct (after_ok U l2 G A2) as (n2' & E2' & ch2 & NE2 & J2).
    assert (n1' = n1) by congruence. assert (n2' = n2) by congruence. subst. pose proof (same_state K_eqb valid effects genesis U G n1 n2 ch1 ch2 J1 J2 S). subst ch2.
    destruct J1 as (B1 & _ & R1). destruct J2 as (B2 & _ & R2). split; [rewrite (B_db _ _ _ _ _ _ _ B1), (B_db _ _ _ _ _ _ _ B2); reflexivity|]. intros k. rewrite R1, R2. reflexivity.
  Qed.

  (** The table of heights names the blocks of that chain, one at every height up to the top and none above. *)
  Theorem C74_heights : forall U l n, good_blocks U genesis -> arrive U l -> after l = Some n ->
    exists ch, chain ch /\ n_state n = top_hash ch /\ forall h, hash_at K V (n_db n) h = option_map b_hash (List.find (fun b => b_height b =? h) ch) /\
      (hash_at K V (n_db n) h <> None <-> h < N.of_nat (length ch)).
  Proof.
    intros U l n G A E. destruct (after_ok U l G A) as (n' & E' & ch & NE & J). assert (n' = n) by congruence. subst n'. exists ch. destruct J as (B & T1 & T2).
    pose proof (B_chain _ _ _ _ _ _ _ B) as X. split; [apply X|]. split; auto. intros h. rewrite (B_db _ _ _ _ _ _ _ B), (scratch_hash _ _ _ _ _ G) by auto. split; [reflexivity|]. split.
    - intros Q. destruct (at_height h ch) as [b|] eqn:AH; [|cbn in Q; congruence]. destruct (at_height_in _ _ _ AH) as (I & <-). exact (height_in _ _ _ _ _ G _ _ X I).
    - intros L. destruct (all_heights _ _ _ _ _ G h ch X L) as (b & ->). discriminate.
  Qed.

  (** A node that ends between two operations with all its tables written is on the same block with the same tables when it starts again. *)
  Theorem C74_restart : forall U l n i v, good_blocks U genesis -> arrive U l -> after l = Some n ->
    (length (n_trace K V C n) <= i)%nat -> a_cur (d_map K V (n_db n)) <= v ->
    exists n', step n (Restart i v) = Some n' /\ n_state n' = n_state n /\ n_db n' = n_db n /\ forall k, rank_of k (n_rank n') = rank_of k (n_rank n).
  Proof.
    intros U l n i v G A E L CV. destruct (after_ok U l G A) as (n' & E' & ch & NE & J). assert (n' = n) by congruence. subst n'. pose proof J as (B & T1 & T2). pose proof (B_chain _ _ _ _ _ _ _ B) as X.
    cbn [ReorgModel.step]. rewrite (proj2 (nth_error_None _ _) L).
    destruct (start_ok K_eqb valid effects genesis commit_delay U G (n_db n) v (n_stored K V C n) ch X (B_db _ _ _ _ _ _ _ B) (B_in _ _ _ _ _ _ _ B) (B_stored _ _ _ _ _ _ _ B)) as (n' & S & J' & _).
    rewrite (B_db _ _ _ _ _ _ _ B) in CV. destruct (scratch_lows _ _ _ _ _ G _ X) as ((CU & _) & _). rewrite CU in CV. rewrite cut_all in J' by exact CV.
    assert (OG : or_genesis genesis ch = ch) by (destruct ch; [congruence|reflexivity]). rewrite OG in J'. destruct J' as (B' & T1' & T2').
    exists n'. split; auto. split; [congruence|]. split; [rewrite (B_db _ _ _ _ _ _ _ B'), (B_db _ _ _ _ _ _ _ B); reflexivity|]. intros k. rewrite T2, T2'. reflexivity.
  Qed.

  (** C75.  No block lies about its height, the root of the node is on its main chain, and the block it is told to switch to descends from the root.  Then the switch either
      ends on that block or leaves the node on the block and with the tables it had; it fails only if some block on the way is on no valid chain; and the root stays.
      Partial: see [C75_deep_partial] for forks that do not descend from the root, and the refutations below. *)
  Theorem C75_partial : forall U l n r h pok, good_blocks U genesis -> honest U -> arrive U l -> after l = Some n ->
    rooted n r -> leads n r h ->
    exists n', step n (Switch h pok) = Some n' /\ rooted n' r /\
      (n_state n' = h \/ (n_state n' = n_state n /\ n_db n' = n_db n /\ forall ch, chain ch -> Forall U ch -> top_hash ch <> h)).
  Proof.
    intros U l n r h pok G H A E RO (path & b & Eh & P & BI). destruct (after_full U l n G H A E) as (ch & FU). pose proof (rooted_in K_eqb valid effects genesis U G n ch r FU RO) as Ir.
    pose proof (fresh_full K_eqb valid effects genesis U n ch FU) as F1. set (n1 := fresh_trace K V C n) in *. cbn [ReorgModel.step]. fold n1.
    assert (BI1 : blocks_in n1 (path ++ [b])) by (intros x I; exact (proj1 (Forall_forall _ _) BI x I)).
    destruct (fork_block K_eqb valid effects genesis U G n1 ch b (proj1 F1)) as (f & Ff & Fb); [apply BI1, in_app_iff; cbn; auto|]. rewrite Eh in Ff. rewrite Ff.
    pose proof (near_result K_eqb valid effects genesis commit_delay U G H pok n1 ch r path b f F1 (proj1 RO) Ir P BI1 Fb) as S.
    destruct (switch _ _ _ _ _ _ _ _ 2 pok f n1) as [m|m|]; [| |destruct S].
    - destruct S as (c & J & I & R & T). exists m. split; auto. split; [eapply in_rooted; eauto|]. left. rewrite T. exact Eh.
    - destruct S as (c & J & I & R & T & BAD). eexists. split; [reflexivity|]. split; [split; [exact R|apply (proj2 (in_rooted K_eqb valid effects genesis U G m c r J R I))]|].
      right. cbn. split; [exact T|]. pose proof (same_state K_eqb valid effects genesis U G m n c ch J (proj1 FU) T). subst c. split; [rewrite (B_db _ _ _ _ _ _ _ (proj1 J)), (B_db _ _ _ _ _ _ _ (proj1 (proj1 FU))); reflexivity|].
      intros c0 X0 F0 TH. apply BAD. exists c0. split; [split; auto|].
      assert (UP : Forall U (path ++ [b])). { apply Forall_forall. intros x Ix. apply (inv_forks_U K_eqb valid effects genesis U n1 ch x (proj1 F1)). apply BI1. exact Ix. }
      assert (Ur : U r) by (apply (chain_U K_eqb valid effects genesis U n ch r (proj1 FU) Ir)).
      clear - X0 F0 TH Eh P UP Ur G H. revert b h c0 X0 F0 TH Eh P UP. induction path as [|y path IH] using rev_ind; intros b h c0 X0 F0 TH Eh P UP.
      + destruct c0 as [|c c0]; [exfalso; cbn in TH; inversion UP as [|? ? Ub]; subst; apply (proj1 (proj2 G) b Ub); congruence|]. cbn in TH. inversion F0; subst. inversion UP; subst.
        assert (c = b) by (apply (proj1 G); auto). subst. intros x [<-|[]]. cbn; auto.
      + destruct c0 as [|c c0]; [exfalso; cbn in TH; apply Forall_app in UP; destruct UP as (_ & UP); inversion UP as [|? ? Ub]; subst; apply (proj1 (proj2 G) b Ub); congruence|].
        cbn in TH. inversion F0 as [|? ? Uc Fc]; subst. apply Forall_app in UP. destruct UP as (UP1 & UP2). inversion UP2 as [|? ? Ub]; subst. assert (c = b) by (apply (proj1 G); auto). subst c.
        apply follows_app in P. destruct P as (P1 & P2). rewrite map_app in P2. cbn [map] in P2. rewrite last_last in P2. cbn in P2. destruct P2 as (P2 & _).
        destruct c0 as [|q c0].
        * exfalso. destruct X0 as (-> & _). apply Forall_app in UP1. destruct UP1 as (_ & UP1). inversion UP1 as [|? ? Uy]; subst.
          pose proof (H _ _ Ub Uy P2) as HH. destruct G as (_ & _ & _ & _ & G0 & _). lia.
        * destruct X0 as ((Q & _ & _) & X0). specialize (IH y (b_hash y) (q :: c0) X0 Fc). cbn in IH. assert (EQ : b_hash q = b_hash y) by congruence. specialize (IH EQ eq_refl P1 UP1).
          intros x Ix. apply in_app_iff in Ix. destruct Ix as [Ix|[<-|[]]]; [right; apply IH; auto|left; auto].
  Qed.

  (** A fork that descends from another block [r'] of the height of the root.  The proofs of the main chain are still found.  Then the node ends on the block it was told to
      switch to, or stays where it was, or is left on a block below its root. *)
  Theorem C75_deep_partial : forall U l n r r' h pok, good_blocks U genesis -> honest U -> arrive U l -> after l = Some n ->
    rooted n r -> n_state n <> b_hash r -> get_block K V C n (b_hash r') = Some r' -> b_height r' = b_height r -> r' <> r -> leads n r' h ->
    (forall b, U b -> hash_at K V (n_db n) (b_height b) = Some (b_hash b) -> pok b = true) ->
    exists n', step n (Switch h pok) = Some n' /\
      (n_state n' = h \/ (n_state n' = n_state n /\ n_db n' = n_db n) \/ (n_root n' = Some r /\ hash_at K V (n_db n') (b_height r) = None)).
  Proof.
    intros U l n r r' h pok G H A E RO NS Gr HR NR (path & b & Eh & P & BI) PO. destruct (after_full U l n G H A E) as (ch & FU). pose proof (rooted_in K_eqb valid effects genesis U G n ch r FU RO) as Ir.
    pose proof (fresh_full K_eqb valid effects genesis U n ch FU) as F1. set (n1 := fresh_trace K V C n) in *. cbn [ReorgModel.step]. fold n1.
    assert (BI1 : blocks_in n1 (path ++ [b])) by (intros x I; exact (proj1 (Forall_forall _ _) BI x I)).
    destruct (fork_block K_eqb valid effects genesis U G n1 ch b (proj1 F1)) as (f & Ff & Fb); [apply BI1, in_app_iff; cbn; auto|]. rewrite Eh in Ff. rewrite Ff.
    assert (PO' : forall x, In x ch -> pok x = true).
    { intros x I. pose proof (chain_U K_eqb valid effects genesis U n ch x (proj1 FU) I) as Ux. apply PO; auto.
      destruct FU as (J & _). rewrite (B_db _ _ _ _ _ _ _ (proj1 J)), (scratch_hash _ _ _ _ _ G) by apply J. now rewrite (in_at_height _ _ _ _ _ G x ch) by (auto; apply J). }
    pose proof (deep_result K_eqb valid effects genesis commit_delay U G H pok n1 ch r r' path b f F1 (proj1 RO) Ir NS Gr HR NR PO' P BI1 Fb) as S.
    pose proof (switch_fine K_eqb valid effects genesis commit_delay U G H pok 2 f n1 (ex_intro _ ch F1) (proj1 (fork_found _ _ _ Ff))) as FI.
    destruct (switch _ _ _ _ _ _ _ _ 2 pok f n1) as [m|m|]; [| |destruct S].
    - exists m. split; auto. left. congruence.
    - eexists. split; [reflexivity|]. cbn. destruct S as [S|S]; [|auto]. right. left. split; [exact S|]. destruct FI as (c & FI).
      pose proof (same_state K_eqb valid effects genesis U G m n c ch (proj1 FI) (proj1 FU) S). subst c.
      rewrite (B_db _ _ _ _ _ _ _ (proj1 (proj1 FI))), (B_db _ _ _ _ _ _ _ (proj1 (proj1 FU))). reflexivity.
  Qed.
End PROPS.
Print Assumptions C74_alive.
Print Assumptions C74_chain.
Print Assumptions C74_no_trace.
Print Assumptions C74_heights.
Print Assumptions C74_restart.
Print Assumptions C75_partial.
Print Assumptions C75_deep_partial.

(** ** Cases *)
(** keys and values are numbers; a block writes its number to the key of its farmer and adds it to key 0; it is invalid if its number is 9, or if it is 5 and key 0 is over 20 *)
Definition ex_valid (v : view N N) (b : block) : option N :=
  let sum := match v 0 with Some x => x | None => 0 end in
  if (b_data b =? 9) || ((b_data b =? 5) && (20 <? sum)) then None else Some (sum + b_data b).
Definition ex_effects (v : view N N) (b : block) (c : option N) : list (N * N) :=
  match c with Some x => [(b_farmer b, b_data b); (0, x)] | None => [(0, 1)] end.
Definition ex_genesis : block := mk_block 100 0 0 0 0.
Definition ex_after := after N.eqb ex_valid ex_effects ex_genesis 2.
Definition ex_m1 := mk_block 101 100 1 1 3.
Definition ex_m2 := mk_block 102 101 2 2 4.
Definition ex_m3 := mk_block 103 102 3 1 6.
Definition ex_m4 := mk_block 104 103 4 3 7.
(** a fork after m2, valid to its end; one whose last block is not *)
Definition ex_f3 := mk_block 113 102 3 2 8.
Definition ex_f4 := mk_block 114 113 4 2 2.
Definition ex_g4 := mk_block 124 113 4 1 1.
Definition ex_g5 := mk_block 125 124 5 1 9.
(** forks from the genesis block *)
Definition ex_a1 := mk_block 201 100 1 4 2.
Definition ex_a2 := mk_block 202 201 2 4 2.
Definition ex_a3 := mk_block 203 202 3 4 1.
Definition ex_c2 := mk_block 212 201 2 4 9.
Definition ex_c3 := mk_block 213 212 3 4 1.
(** a block that claims height 3 and names the genesis block *)
Definition ex_x3 := mk_block 303 100 3 5 1.
Definition ex_blocks := [ex_genesis; ex_m1; ex_m2; ex_m3; ex_m4; ex_f3; ex_f4; ex_g4; ex_g5; ex_a1; ex_a2; ex_a3; ex_c2; ex_c3].
Definition ex_all := ex_x3 :: ex_blocks.
Definition yes (b : block) : bool := true.
(** the node gets m1 to m4 and goes there, m1 and m2 are committed, then the other blocks arrive *)
Definition ex_start : list op := map Add [ex_m1; ex_m2; ex_m3; ex_m4] ++ [Switch 104 yes; Commit yes; Commit yes] ++ map Add [ex_f3; ex_f4; ex_g4; ex_g5; ex_a1; ex_a2; ex_a3; ex_c2; ex_c3].
Definition ex_look (l : list op) : option (option N * N * option N * N) :=
  match ex_after l with
  | Some n => Some (option_map b_hash (n_root _ _ _ n), n_state _ _ _ n, the_view N N N.eqb (n_db _ _ _ n) 0, rank_of 1 (n_rank _ _ _ n))
  | None => None
  end.

Ltac all_in := unfold arrive, ex_start; cbn [map app]; repeat (apply Forall_cons; [try exact Logic.I; cbn; auto 30|]); apply Forall_nil.

Lemma ex_good L : (L = ex_blocks \/ L = ex_all) -> good_blocks (fun b => In b L) ex_genesis.
Proof.
  intros E. assert (IC : incl L ex_all) by (destruct E as [->| ->]; [intros x I; right; exact I|apply incl_refl]). assert (IG : In ex_genesis L) by (destruct E as [->| ->]; cbn; auto).
  split; [|split; [|split; [|split; [exact IG|split; reflexivity]]]].
  - intros a b A B. apply IC in A. apply IC in B. cbn in A, B. repeat (destruct A as [<-|A]; [repeat (destruct B as [<-|B]; [intros Q; first [reflexivity|discriminate Q]|]); destruct B|]). destruct A.
  - intros a A. apply IC in A. cbn in A. repeat (destruct A as [<-|A]; [discriminate|]). destruct A.
  - intros a A. apply IC in A. cbn in A. repeat (destruct A as [<-|A]; [reflexivity|]). destruct A.
Qed.
Lemma ex_honest : honest (fun b => In b ex_blocks).
Proof.
  intros a b A B. cbn in A, B. repeat (destruct A as [<-|A]; [repeat (destruct B as [<-|B]; [intros Q; first [reflexivity|discriminate Q]|]); destruct B|]). destruct A.
Qed.

(** Three ways to m4 with the same tables: directly; by f4 and back, over a failed attempt; by a deep switch to a3, a restart, and back. *)
Example C74_case :
  arrive (fun b => In b ex_blocks) ex_start /\
  ex_look ex_start = Some (Some 102, 104, Some 21, 2) /\
  ex_look (ex_start ++ [Switch 114 yes]) = Some (Some 102, 114, Some 18, 1) /\
  ex_look (ex_start ++ [Switch 114 yes; Switch 125 yes; Switch 104 yes]) = Some (Some 102, 104, Some 21, 2) /\
  ex_look (ex_start ++ [Switch 203 yes]) = Some (Some 202, 203, Some 6, 0) /\
  ex_look (ex_start ++ [Switch 203 yes; Restart 1 4; Add ex_m3; Add ex_m4; Switch 104 yes]) = Some (Some 100, 104, Some 21, 2).
Proof. split; [all_in|]. vm_compute. auto. Qed.

(** The hypotheses of C75_partial and of C75_deep_partial are met after ex_start, for the fork to f4, for the one to g5, which fails, and for the deep ones to a3 and to c3. *)
Example C75_case : exists n, ex_after ex_start = Some n /\ rooted n ex_m2 /\ leads n ex_m2 114 /\ leads n ex_m2 125 /\
  n_state _ _ _ n <> b_hash ex_m2 /\ get_block _ _ _ n 202 = Some ex_a2 /\ leads n ex_a2 203 /\ get_block _ _ _ n 212 = Some ex_c2 /\ leads n ex_c2 213.
Proof.
  eexists. split; [vm_compute; reflexivity|]. split; [split; reflexivity|].
  split; [exists [ex_f3], ex_f4; split; [reflexivity|split; [cbn; auto|all_in]]|].
  split; [exists [ex_f3; ex_g4], ex_g5; split; [reflexivity|split; [cbn; auto|all_in]]|].
  split; [discriminate|]. split; [reflexivity|].
  split; [exists [], ex_a3; split; [reflexivity|split; [cbn; auto|all_in]]|].
  split; [reflexivity|]. exists [], ex_c3; split; [reflexivity|split; [cbn; auto|all_in]].
Qed.

(** The full statement of C75 is false.  A deep switch to c3: a1 is valid, c2 is not.  The node stays on a1, at height 1, while its root is m2, at height 2; then no switch back to
    m4 or to f4, which descend from that root and are valid, succeeds. *)
Theorem C75_refuted :
  ex_look (ex_start ++ [Switch 213 yes]) = Some (Some 102, 201, Some 3, 0) /\
  ex_look (ex_start ++ [Switch 213 yes; Switch 104 yes; Switch 114 yes; Commit yes]) = Some (Some 102, 201, Some 3, 0) /\
  ex_look (ex_start ++ [Switch 114 yes]) = Some (Some 102, 114, Some 18, 1).
Proof. vm_compute. auto. Qed.
Print Assumptions C75_refuted.

(** A block that lies about its height: it takes the node back to the genesis block, and there it stays. *)
Theorem C75_refuted_height : good_blocks (fun b => In b ex_all) ex_genesis /\ arrive (fun b => In b ex_all) (ex_start ++ [Add ex_x3; Switch 303 yes]) /\
  ex_look (ex_start ++ [Add ex_x3]) = Some (Some 102, 104, Some 21, 2) /\
  ex_look (ex_start ++ [Add ex_x3; Switch 303 yes]) = Some (Some 100, 100, Some 1, 0).
Proof. split; [apply ex_good; auto|]. split; [all_in|]. vm_compute. auto. Qed.
Print Assumptions C75_refuted_height.
