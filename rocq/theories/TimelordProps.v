(** Properties of the timelord: C73. *)
Require Import List Arith NArith Bool Lia.
Import ListNotations.
From Verif Require Import VdfModel VdfSpec VdfProofs VdfProps TimelordModel TimelordSpec TimelordProofs.
Open Scope N_scope.

(** ** C73: What a timelord publishes is a valid proof for an interval it was asked for *)

(** [p] is a proof for one of [rs]: every node that checks it, on whatever machine and schedule, finds it right, and its output is as many hashes away as the interval is long *)
Definition proof_for (H : N -> N) (H2 : N -> N -> N) (segment_iters : N) (rs : list request) (p : proof) : Prop :=
  exists r, In r rs /\ p_start p = r_start r /\ p_start p + p_num_iters p = r_end r /\ p_prev p = r_infuse r /\
    p_segment_size p = segment_iters /\ N.of_nat (length (p_segments p)) * segment_iters = p_num_iters p /\
    Hashes H (p_num_iters p) (infused H2 (p_input p) (p_prev p) (p_reward p)) (get_output p) /\
    (N.of_nat (length (p_segments p)) < 2 ^ 32 -> forall pa sched v, verify_vdf_cpu H H2 pa sched p = Some v -> v = true).

Lemma good_proof_for H H2 seg rs p : good H H2 seg rs p -> proof_for H H2 seg rs p.
Proof.
  intros (r & A & B & C & D & E & F & G & K). exists r. repeat (split; [assumption|]). split.
  - rewrite <- G. unfold get_output. now apply checkpoints_last.
  - intros SZ pa sched v V. apply (C70_verdict H H2 pa sched p v SZ V). rewrite E. auto.
Qed.

Lemma filter_le {A} (f : A -> bool) l : (length (filter f l) <= length l)%nat.
Proof. induction l as [|a l IH]; cbn; [lia|]. destruct (f a); cbn; lia. Qed.
Lemma kept_small s : (length (t_infuse s) <=? 1000)%nat = true -> kept s.
Proof. intros L e r _. apply Nat.leb_le in L. pose proof (filter_le (fun z => (r_start r <=? fst z)%N) (t_infuse s)). lia. Qed.

Definition r_of (start stop inf : N) (input : option N) : request := mk_request 1 start stop inf input.
(** A request with another block for an interval the timelord is through with, and an update before the thread has gone back. *)
Theorem C73_refuted_race : exists l s p pa sched,
  consistent (requests l) /\ ~ In Stop l /\
  run ex_H ex_H2 2 100 5 init l = (s, [p]) /\ verify_vdf_cpu ex_H ex_H2 pa sched p = Some false.
Proof.
  exists [Req (r_of 0 4 100 (Some 7)); Loop; Loop; Loop; Req (r_of 0 4 101 (Some 7)); Update]. eexists _, _, Lanes, [0; 0]%nat.
  split; [split; cbn; intros; repeat match goal with X : _ \/ _ |- _ => destruct X as [<-|X] | X : False |- _ => destruct X end; cbn; auto; reflexivity|].
  split; [intros [X|[X|[X|[X|[X|[X|[]]]]]]]; discriminate|].
  split; [vm_compute; reflexivity|vm_compute; reflexivity].
Qed.
Print Assumptions C73_refuted_race.
(** A request with another block for a shorter interval from the same start: the longer one goes on waiting with the block of before. *)
Theorem C73_refuted_overlap : exists l s p q pa sched,
  calm ex_H ex_H2 2 100 5 init l /\ ~ In Stop l /\
  run ex_H ex_H2 2 100 5 init l = (s, [p; q]) /\ verify_vdf_cpu ex_H ex_H2 pa sched q = Some false.
Proof.
  exists [Req (r_of 0 8 100 (Some 7)); Loop; Req (r_of 0 4 101 (Some 7)); Loop; Loop; Loop; Update; Loop; Loop; Loop; Update]. eexists _, _, _, Lanes, [0; 0]%nat.
  split.
  { unfold calm. cbn [whenever]. repeat (split; [first [exact Logic.I | intros _; split; [vm_compute; reflexivity|]]|]); try exact Logic.I.
    - apply kept_small. vm_compute. reflexivity.
    - apply kept_small. vm_compute. reflexivity. }
  split; [intros X; repeat destruct X as [X|X]; try discriminate; destruct X|].
  split; [vm_compute; reflexivity|vm_compute; reflexivity].
Qed.
Print Assumptions C73_refuted_overlap.
(** Stopping the VDF forgets the blocks to infuse but not the requests. *)
Theorem C73_refuted_stop : exists l s p q pa sched,
  consistent (requests l) /\ whenever ex_H ex_H2 2 100 5 (fun s => t_reset s = false /\ kept s) (fun _ => True) init l /\
  run ex_H ex_H2 2 100 5 init l = (s, [p; q]) /\ verify_vdf_cpu ex_H ex_H2 pa sched q = Some false.
Proof.
  exists [Req (r_of 4 8 100 (Some 7)); Loop; Stop; Req (r_of 0 4 99 (Some 6)); Loop; Loop; Loop; Loop; Loop; Update]. eexists _, _, _, Lanes, [0; 0]%nat.
  split; [split; cbn; intros; repeat match goal with X : _ \/ _ |- _ => destruct X as [<-|X] | X : False |- _ => destruct X end; cbn; auto; try reflexivity|].
  { right; first [left; apply N.leb_le; vm_compute; reflexivity|right; apply N.leb_le; vm_compute; reflexivity]. } { right; first [left; apply N.leb_le; vm_compute; reflexivity|right; apply N.leb_le; vm_compute; reflexivity]. }
  split.
  { cbn [whenever]. repeat (split; [first [exact Logic.I | intros _; split; [vm_compute; reflexivity|]]|]); try exact Logic.I.
    apply kept_small. vm_compute. reflexivity. }
  split; [vm_compute; reflexivity|vm_compute; reflexivity].
Qed.
Print Assumptions C73_refuted_stop.

(** Whatever the order of requests, rounds of the thread, updates and timers: if requests do not overlap, updates do not run between a request that makes the VDF go back
    and the next round of the thread, and nothing waits when the VDF is stopped, all that is published is right. *)
Theorem C73_valid_partial : forall H H2 segment_iters max_history reward l s out,
  0 < segment_iters -> (0 < max_history)%nat ->
  consistent (requests l) -> calm H H2 segment_iters max_history reward init l ->
  run H H2 segment_iters max_history reward init l = (s, out) ->
  Forall (proof_for H H2 segment_iters (requests l)) out.
Proof.
  intros H H2 seg mh rw l s out SP MP C CA R.
  assert (C2 : consistent (requests l ++ [])) by now rewrite app_nil_r.
  pose proof (run_good H H2 seg mh rw SP MP l [] init (inv_init H H2 seg rw) C2 CA s out R) as G. rewrite app_nil_r in G.
  eapply Forall_impl; [|exact G]. intros p. apply good_proof_for.
Qed.
Print Assumptions C73_valid_partial.

(** A timelord that is given a point to start from and left alone publishes the proof. *)
Theorem C73_served : forall H H2 segment_iters max_history reward r x k,
  0 < segment_iters -> (0 < max_history)%nat ->
  r_input r = Some x -> r_end r = r_start r + N.of_nat k * segment_iters -> (0 < k)%nat ->
  exists s p, run H H2 segment_iters max_history reward init (Req r :: repeat Loop (S k) ++ [Update]) = (s, [p]) /\
    p_input p = x /\ proof_for H H2 segment_iters [r] p.
Proof.
  intros H H2 seg mh rw r x k SP MP IX LE KP. destruct (served H H2 seg mh rw SP MP r x k IX LE KP) as (s & p & R & IP & G).
  exists s, p. split; [exact R|]. split; [exact IP|]. now apply good_proof_for.
Qed.
Print Assumptions C73_served.

(** The thread is never told to restart without a point to restart from. *)
Theorem C73_has_point : forall H H2 segment_iters max_history reward l s out,
  run H H2 segment_iters max_history reward init l = (s, out) -> t_run s = true -> t_peak s <> None.
Proof. intros H H2 seg mh rw l s out R. refine (run_peak H H2 seg mh rw l init s out _ R). discriminate. Qed.
Print Assumptions C73_has_point.

(** three intervals in a row, the second asked for twice, the third with another block after the VDF went past its start *)
Definition ex_events : list event :=
  [Req (r_of 0 4 100 (Some 7)); Loop; Loop; Req (r_of 4 10 101 None); Loop; Update; Loop; Timer; Req (r_of 4 10 101 None); Req (r_of 10 12 102 None);
   Loop; Loop; Update; Loop; Req (r_of 10 12 103 None); Loop; Loop; Loop; Update].
Example C73_case :
  consistent (requests ex_events) /\ calm ex_H ex_H2 2 100 5 init ex_events /\
  map (fun p => (p_start p, p_num_iters p, p_prev p)) (snd (run ex_H ex_H2 2 100 5 init ex_events)) = [(0, 4, 100); (4, 6, 101); (10, 2, 103)].
Proof.
  split; [|split].
  - split; cbn; intros; repeat match goal with X : _ \/ _ |- _ => destruct X as [<-|X] | X : False |- _ => destruct X end; cbn; auto; try reflexivity;
      right; first [left; apply N.leb_le; vm_compute; reflexivity|right; apply N.leb_le; vm_compute; reflexivity].
  - unfold calm, ex_events. cbn [whenever]. repeat (split; [first [exact Logic.I | intros _; split; [vm_compute; reflexivity|]]|]); try exact Logic.I;
      apply kept_small; vm_compute; reflexivity.
  - vm_compute. reflexivity.
Qed.
