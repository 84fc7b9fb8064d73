(** C43: the wallet builds balanced transactions that its addresses can pay.  C67: it does not spend a coin twice. *)
Require Import List Arith NArith Bool Lia Permutation.
From Verif Require Import WalletModel WalletSpec WalletProofs WalletCache.
Import ListNotations.
Open Scope N_scope.

Lemma complete_inv own arrange fee os bm t dep t' :
  (forall l, Permutation (arrange l) l) -> balances_ok bm -> (forall c, N.max (in_total (t_inputs t) c) (need t c) + total dep c < 2^128) ->
  complete own arrange fee os bm t dep = Some t' ->
  exists spent, covered bm spent /\ moves (t_inputs t) [] (t_inputs t') spent /\
    (forall c, in_total (t_inputs t') c = in_total (t_inputs t) c + ((need t c - in_total (t_inputs t) c) + total dep c)) /\ grows (t_inputs t) (t_inputs t') /\
    t_outputs t' = t_outputs t /\ t_deposits t' = t_deposits t /\
    (t_sender t = None -> os = None -> exists s f, t_sender t' = Some s /\ fee (mk_tx (t_inputs t') (t_outputs t) (t_deposits t) None) = Some f /\ bal spent (s, 0) + f <= bal bm (s, 0)).
Proof.
  intros Harr Hbm Hs H. change (2^128) with M in Hs. destruct (missing_ok t dep Hs) as [M1 M2]. unfold complete in H.
  assert (Hc0 : covered bm []) by (intros k; rewrite bal_nil; lia).
  pose proof (gather_all_ok own arrange Harr bm Hbm (missing t dep) (t_inputs t) [] Hc0 M1) as HG.
  specialize (HG (fun c => ltac:(rewrite M2; specialize (Hs c); lia))).
  destruct (gather_all own arrange bm (missing t dep) (t_inputs t) []) as [[ins spent]|]; [|discriminate]. destruct HG as (G1 & G2 & G3 & G4).
  assert (G3' : forall c, in_total ins c = in_total (t_inputs t) c + ((need t c - in_total (t_inputs t) c) + total dep c)) by (intros c; rewrite G3, M2; reflexivity).
  destruct (fee _) as [f|] eqn:Ef; [|discriminate]. exists spent. destruct (t_sender t) as [a|] eqn:Es; [|destruct os as [a|]].
  - injection H as <-. cbn. repeat (split; [assumption || reflexivity|]). discriminate.
  - injection H as <-. cbn. repeat (split; [assumption || reflexivity|]). discriminate.
  - destruct (pick_sender bm spent (0, 0)) as [a m] eqn:Ep. destruct (f <=? m) eqn:El; [|discriminate]. injection H as <-. cbn.
    repeat (split; [assumption || reflexivity|]). intros _ _. exists a, f. split; [reflexivity|]. split; [exact Ef|].
    pose proof (pick_ok bm Hbm bm spent (fun x Hx => Hx) G1 (0, 0)) as HP. cbn [fst snd] in HP. rewrite Ep in HP. cbn [fst snd] in HP.
    apply N.leb_le in El. specialize (HP ltac:(specialize (G1 (0, 0)); lia)). lia.
Qed.

(** When the wallet completes a transaction, its outputs and deposits are what they were, its inputs are kept or grow, and in every currency the inputs are what was
    needed; inputs that are already there count as far as they are needed.  If they are not more than that, the transaction is balanced.
    Only partial: inputs that exceed the outputs are not noticed (C43_balanced_refuted), and amounts must not exceed 128 bit when added up. *)
Theorem C43_balanced_partial :
  forall own arrange fee option_sender balances t deposit t',
    (forall l, Permutation (arrange l) l) -> balances_ok balances ->
    (forall c, N.max (in_total (t_inputs t) c) (need t c) + total deposit c < 2^128) ->
    complete own arrange fee option_sender balances t deposit = Some t' ->
    t_outputs t' = t_outputs t /\ t_deposits t' = t_deposits t /\ grows (t_inputs t) (t_inputs t') /\
    forall c, in_total (t_inputs t') c = N.max (in_total (t_inputs t) c) (need t c) + total deposit c /\
              (in_total (t_inputs t) c <= need t c -> in_total (t_inputs t') c = need t' c + total deposit c).
Proof.
  intros own arrange fee os bm t dep t' Harr Hbm Hs H.
  destruct (complete_inv own arrange fee os bm t dep t' Harr Hbm Hs H) as (spent & _ & _ & H3 & H4 & H5 & H6 & _).
  split; [exact H5|]. split; [exact H6|]. split; [exact H4|]. intros c. rewrite H3. unfold need. rewrite H5, H6. fold (need t c). split; lia.
Qed.
Print Assumptions C43_balanced_partial.

(** No address gives more than its balance: what is added to the inputs from an address is at most its balance, and, if the wallet chooses who pays the fee, the fee
    is covered on top.  If no input from the wallet is there before, this is all that is taken.  Only partial: inputs from the wallet that were there before are not
    counted against the balance (C43_covered_refuted). *)
Theorem C43_covered_partial :
  forall own arrange fee option_sender balances t deposit t',
    (forall l, Permutation (arrange l) l) -> balances_ok balances ->
    (forall c, N.max (in_total (t_inputs t) c) (need t c) + total deposit c < 2^128) ->
    complete own arrange fee option_sender balances t deposit = Some t' ->
    (forall k, taken (t_inputs t) k <= taken (t_inputs t') k <= taken (t_inputs t) k + bal balances k) /\
    (t_sender t = None -> option_sender = None ->
     exists s f, t_sender t' = Some s /\ fee (mk_tx (t_inputs t') (t_outputs t) (t_deposits t) None) = Some f /\
                 taken (t_inputs t') (s, 0) + f <= taken (t_inputs t) (s, 0) + bal balances (s, 0)).
Proof.
  intros own arrange fee os bm t dep t' Harr Hbm Hs H.
  destruct (complete_inv own arrange fee os bm t dep t' Harr Hbm Hs H) as (spent & H1 & H2 & _ & _ & _ & _ & H7).
  split.
  - intros k. specialize (H1 k). specialize (H2 k). rewrite bal_nil in H2. lia.
  - intros E1 E2. destruct (H7 E1 E2) as (s & f & S1 & S2 & S3). exists s, f. split; [exact S1|]. split; [exact S2|].
    specialize (H2 (s, 0)). rewrite bal_nil in H2. lia.
Qed.
Print Assumptions C43_covered_partial.

(** "Not enough funds" means that: if the balances suffice in every currency and the sender is given, the wallet completes the transaction. *)
Theorem C43_enough :
  forall own arrange fee option_sender balances t deposit,
    (forall l, Permutation (arrange l) l) -> balances_ok balances ->
    (forall c, N.max (in_total (t_inputs t) c) (need t c) + total deposit c < 2^128) ->
    (forall c, (need t c - in_total (t_inputs t) c) + total deposit c <= funds balances c) ->
    (forall x, fee x <> None) -> t_sender t <> None \/ option_sender <> None ->
    complete own arrange fee option_sender balances t deposit <> None.
Proof.
  intros own arrange fee os bm t dep Harr Hbm Hs Hf Hfee Hsend. change (2^128) with M in Hs. destruct (missing_ok t dep Hs) as [M1 M2]. unfold complete.
  assert (Hc0 : covered bm []) by (intros k; rewrite bal_nil; lia).
  pose proof (gather_all_ok own arrange Harr bm Hbm (missing t dep) (t_inputs t) [] Hc0 M1) as HG.
  specialize (HG (fun c => ltac:(rewrite M2; specialize (Hs c); lia))).
  destruct (gather_all own arrange bm (missing t dep) (t_inputs t) []) as [[ins spent]|].
  - destruct (fee _) as [f|] eqn:Ef; [|exfalso; apply (Hfee _ Ef)]. destruct (t_sender t); [discriminate|]. destruct os; [discriminate|]. destruct Hsend; congruence.
  - destruct HG as (c & HG). rewrite avail_funds, M2 in HG. specialize (Hf c). lia.
Qed.
Print Assumptions C43_enough.

(** Two addresses 11 and 12 with native coins and a token 5; 250 of the native coin and 7 of the token are needed, 30 come from a contract. *)
Definition ex_sort (l : list (N * N)) : list (N * N) :=
  fold_right (fun x l => (fix ins l := match l with [] => [x] | y :: m => if snd y <? snd x then x :: l else y :: ins m end) l) [] l.
Lemma ex_sort_perm l : Permutation (ex_sort l) l.
Proof.
  unfold ex_sort. induction l as [|x l IH]; [constructor|]. cbn [fold_right]. rewrite <- IH at 2. generalize (fold_right
    (fun x l => (fix ins l := match l with [] => [x] | y :: m => if snd y <? snd x then x :: l else y :: ins m end) l) [] l).
  intros m. induction m as [|y m IHm]; [reflexivity|]. destruct (snd y <? snd x); [reflexivity|]. rewrite IHm. apply perm_swap.
Qed.
Definition ex_bal : list (key * N) := [((11, 0), 100); ((11, 5), 3); ((12, 0), 200); ((12, 5), 10)].
Definition ex_tx : tx := mk_tx [mk_in 99 0 30] [(0, 250)] [(5, 7)] None.
Example ex_ok : balances_ok ex_bal.
Proof. split; [repeat constructor; cbn; intuition discriminate | repeat constructor]. Qed.
Definition ex_own (a : N) : bool := (a =? 11) || (a =? 12).
Example C43_case :
  complete ex_own ex_sort (fun _ => Some 15) None ex_bal ex_tx [(0, 20)] = Some (mk_tx [mk_in 99 0 30; mk_in 12 0 200; mk_in 11 0 40; mk_in 12 5 7] [(0, 250)] [(5, 7)] (Some 11)) /\
  complete ex_own ex_sort (fun _ => Some 75) None ex_bal ex_tx [(0, 20)] = None /\
  complete ex_own ex_sort (fun _ => Some 15) None ex_bal ex_tx [(0, 81)] = None.
Proof. vm_compute. auto. Qed.
Example C43_case_hyp : forall c, N.max (in_total (t_inputs ex_tx) c) (need ex_tx c) + total [(0, 20)] c < 2^128.
Proof.
  intros c. unfold need, in_total, total, ex_tx. cbn [t_inputs t_outputs t_deposits filter fst i_contract].
  destruct (0 =? c), (5 =? c); reflexivity.
Qed.

(** More inputs than outputs: the wallet completes the transaction, 50 coins have no output. *)
Theorem C43_balanced_refuted :
  exists own arrange fee option_sender balances t deposit t',
    (forall l, Permutation (arrange l) l) /\ balances_ok balances /\ (forall c, N.max (in_total (t_inputs t) c) (need t c) + total deposit c < 2^128) /\
    complete own arrange fee option_sender balances t deposit = Some t' /\ in_total (t_inputs t') 0 <> need t' 0 + total deposit 0.
Proof.
  exists ex_own, ex_sort, (fun _ => Some 15), None, ex_bal, (mk_tx [mk_in 99 0 150] [(0, 100)] [] None), [], (mk_tx [mk_in 99 0 150] [(0, 100)] [] (Some 12)).
  split; [apply ex_sort_perm|]. split; [apply ex_ok|]. split; [intros c; unfold need, in_total, total; cbn; destruct c; reflexivity|].
  split; [reflexivity | vm_compute; discriminate].
Qed.
Print Assumptions C43_balanced_refuted.

(** An input of 80 from an address with a balance of 100 is there already, 150 are needed: 150 are taken from the address. *)
Theorem C43_covered_refuted :
  exists own arrange fee option_sender balances t deposit t' k,
    (forall l, Permutation (arrange l) l) /\ balances_ok balances /\ (forall c, N.max (in_total (t_inputs t) c) (need t c) + total deposit c < 2^128) /\
    complete own arrange fee option_sender balances t deposit = Some t' /\
    own (fst k) = true /\ taken (t_inputs t) k <= bal balances k /\ bal balances k < taken (t_inputs t') k.
Proof.
  exists ex_own, ex_sort, (fun _ => Some 15), None, ex_bal, (mk_tx [mk_in 11 0 80] [(0, 150)] [] None), [], (mk_tx [mk_in 11 0 150] [(0, 150)] [] (Some 12)), (11, 0).
  split; [apply ex_sort_perm|]. split; [apply ex_ok|]. split; [intros c; unfold need, in_total, total; cbn; destruct c; reflexivity|].
  split; [reflexivity|]. split; [reflexivity|]. split; [vm_compute; discriminate | reflexivity].
Qed.
Print Assumptions C43_covered_refuted.

(** C67 *)
Lemma known_inv own events : forall w rep out, inv own w rep out -> Forall (event_ok own) events ->
  inv own (fold_left (happen own) events w) (fst (known events rep out)) (snd (known events rep out)).
Proof.
  induction events as [|e events IH]; intros w rep out I HF; [exact I|]. inversion HF as [|x l H1 H2]; subst. cbn [fold_left].
  destruct e as [b h n|id x f t| |]; cbn [happen known].
  - apply IH; [apply (inv_update own b h n w rep out I H1) | exact H2].
  - apply IH; [apply (inv_mark own id x f t w rep out I H1) | exact H2].
  - apply IH; [|exact H2]. unfold release_all. pose proof (inv_res _ _ _ _ I) as Hr. destruct w as [cb cr ct cp]. cbn in *. subst cr. exact I.
  - apply IH; [apply inv_reset | exact H2].
Qed.

(** Whatever the wallet went through: what it takes for spendable is what the node reported last less what was sent since and is still open. *)
Theorem C67_spendable :
  forall own events, Forall (event_ok own) events ->
    let '(balances, out) := known events [] [] in
    forall k, bal (c_balance (fold_left (happen own) events reset_cache)) k = bal balances k - committed own out k.
Proof.
  intros own events HF. pose proof (known_inv own events reset_cache [] [] (inv_reset own) HF) as I.
  destruct (known events [] []) as [rep out]. cbn [fst snd] in I. apply (inv_bal _ _ _ _ I).
Qed.
Print Assumptions C67_spendable.

(** So the next transaction that the wallet completes, together with all that are open, takes no more than the node reported from any address that the new transaction
    takes anything from, the fee included if the wallet chooses who pays. *)
Theorem C67_no_double :
  forall own arrange fee option_sender events t deposit t',
    (forall l, Permutation (arrange l) l) -> Forall (event_ok own) events ->
    (forall c, N.max (in_total (t_inputs t) c) (need t c) + total deposit c < 2^128) ->
    (forall k, own (fst k) = true -> taken (t_inputs t) k = 0) ->
    complete own arrange fee option_sender (c_balance (fold_left (happen own) events reset_cache)) t deposit = Some t' ->
    let '(balances, out) := known events [] [] in
    (forall k, own (fst k) = true -> taken (t_inputs t') k <> 0 -> taken (t_inputs t') k + committed own out k <= bal balances k) /\
    (t_sender t = None -> option_sender = None ->
     exists s f, t_sender t' = Some s /\ fee (mk_tx (t_inputs t') (t_outputs t) (t_deposits t) None) = Some f /\
       (own s = true -> taken (t_inputs t') (s, 0) + f <> 0 -> taken (t_inputs t') (s, 0) + f + committed own out (s, 0) <= bal balances (s, 0))).
Proof.
  intros own arrange fee os events t dep t' Harr HF Hs Hno H. pose proof (known_inv own events reset_cache [] [] (inv_reset own) HF) as I.
  destruct (known events [] []) as [rep out]. cbn [fst snd] in I.
  destruct (C43_covered_partial own arrange fee os _ t dep t' Harr (inv_map _ _ _ _ I) Hs H) as [H1 H2]. split.
  - intros k Ho Hne. specialize (H1 k). rewrite (Hno k Ho), (inv_bal _ _ _ _ I) in H1. lia.
  - intros E1 E2. destruct (H2 E1 E2) as (s & f & S1 & S2 & S3). exists s, f. split; [exact S1|]. split; [exact S2|]. intros Ho Hne.
    rewrite (Hno (s, 0) Ho), (inv_bal _ _ _ _ I) in S3. lia.
Qed.
Print Assumptions C67_no_double.

(** The wallet hears of its balances, sends 150 of the 200 coins of 12 with a fee of 20 from the same address, hears the same balances again at height 7 (not confirmed);
    then the transaction expires. *)
Definition ex_sent : tx := mk_tx [mk_in 12 0 150] [(0, 150)] [] (Some 12).
Definition ex_events : list event := [Heard ex_bal [] 5; Marked 1000 9 (Some 20) ex_sent; Heard ex_bal [77] 7].
Example C67_case_hyp : Forall (event_ok ex_own) ex_events.
Proof.
  repeat constructor; try (cbn; intuition discriminate).
  intros k. unfold commits, taken, ex_sent. cbn [s_tx s_fee t_inputs t_sender filter i_address i_contract].
  destruct (ex_own (fst k)), ((12 =? fst k) && (0 =? snd k)), (key_eqb (12, 0) k); vm_compute; reflexivity.
Qed.
Example C67_case :
  map (bal (c_balance (fold_left (happen ex_own) ex_events reset_cache))) [(11, 0); (12, 0); (12, 5)] = [100; 30; 10] /\
  map (bal (c_balance (fold_left (happen ex_own) (ex_events ++ [Heard ex_bal [] 10]) reset_cache))) [(11, 0); (12, 0); (12, 5)] = [100; 200; 10] /\
  committed ex_own (snd (known ex_events [] [])) (12, 0) = 170 /\
  complete ex_own ex_sort (fun _ => Some 15) None (c_balance (fold_left (happen ex_own) ex_events reset_cache)) (mk_tx [] [(0, 110)] [] None) [] =
    Some (mk_tx [mk_in 11 0 100; mk_in 12 0 10] [(0, 110)] [] (Some 12)) /\
  complete ex_own ex_sort (fun _ => Some 15) None (c_balance (fold_left (happen ex_own) ex_events reset_cache)) (mk_tx [] [(0, 131)] [] None) [] = None.
Proof. vm_compute. auto 10. Qed.
