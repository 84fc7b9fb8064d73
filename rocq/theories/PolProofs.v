(** The text of a partial determines what it says *)
Require Import List Arith NArith Bool Lia String Ascii.
From Verif Require Import BytesLib EngineModel EngineUpper CodecModel CtrProofs AddrProofs AddrStrProofs FixedProofs CtrModel CtrSpec CtrProps PolModel PolSpec.
Import List ListNotations.
Open Scope N_scope.

(** ** Cutting strings *)
Lemma cut_front {A} (a a' b b' : list A) : List.length a = List.length a' -> a ++ b = a' ++ b' -> a = a' /\ b = b'.
Proof.
  revert a'. induction a as [|x a IH]; intros [|x' a'] L E; try discriminate L; [auto|].
  injection E as -> E. destruct (IH a') as (-> & ->); auto.
Qed.
Lemma cut_back {A} (a a' b b' : list A) : List.length b = List.length b' -> a ++ b = a' ++ b' -> a = a' /\ b = b'.
Proof.
  intros L E. apply cut_front; auto. apply (f_equal (@List.length A)) in E. rewrite !app_length in E. lia.
Qed.
(** A run of characters of a class ends at the first other one, read from the front or from the back. *)
Lemma run_front (f : N -> bool) a a' x x' b b' : forallb f a = true -> forallb f a' = true -> f x = false -> f x' = false ->
  a ++ x :: b = a' ++ x' :: b' -> a = a' /\ x :: b = x' :: b'.
Proof.
  revert a'. induction a as [|y a IH]; intros [|y' a'] F F' X X' E; cbn in *.
  - auto.
  - injection E as -> _. apply andb_true_iff in F' as (? & _). congruence.
  - injection E as -> _. apply andb_true_iff in F as (? & _). congruence.
  - injection E as -> E. apply andb_true_iff in F as (_ & F). apply andb_true_iff in F' as (_ & F').
    destruct (IH a') as (-> & ->); auto.
Qed.
Lemma run_back (f : N -> bool) a a' x x' b b' : forallb f b = true -> forallb f b' = true -> f x = false -> f x' = false ->
  (a ++ [x]) ++ b = (a' ++ [x']) ++ b' -> a ++ [x] = a' ++ [x'] /\ b = b'.
Proof.
  intros F F' X X' E. apply (f_equal (@rev N)) in E. rewrite !rev_app_distr in E. cbn [rev app] in E.
  assert (R : forall l, forallb f l = true -> forallb f (rev l) = true).
  { intros l Q. rewrite forallb_forall in *. intros y I. apply Q. now apply in_rev. }
  apply (run_front f) in E as (E1 & E2); auto. apply (f_equal (@rev N)) in E1, E2. rewrite !rev_involutive in E1.
  cbn [rev] in E2. rewrite !rev_involutive in E2. auto.
Qed.

Lemma digits_forallb s : digits s -> forallb is_digit s = true.
Proof. intros D. apply forallb_forall. unfold digits in D. now rewrite Forall_forall in D. Qed.
Lemma dec_digits n : forallb is_digit (dec n) = true.
Proof. apply digits_forallb. apply dec_spec. Qed.
Lemma dec_inj a b : dec a = dec b -> a = b.
Proof. intros E. destruct (dec_spec a) as (A & _), (dec_spec b) as (B & _). rewrite E in A. congruence. Qed.

Lemma addr_len a : List.length (addr_to_string a) = 62%nat.
Proof. destruct (written a) as (vs & -> & _ & L & _). rewrite app_length, map_length, L. reflexivity. Qed.
Lemma addr_head a : exists r, addr_to_string a = 109 :: r.
Proof. destruct (written a) as (vs & -> & _). eexists; reflexivity. Qed.
Lemma addr_inj a b : sized 32 a -> sized 32 b -> addr_to_string a = addr_to_string b -> a = b.
Proof.
  intros (A1 & A2) (B1 & B2) E. pose proof (addr_round_trip a A1 A2) as A. rewrite E, (addr_round_trip b B1 B2) in A. congruence.
Qed.

Lemma hex_len b : List.length (hex b) = (2 * List.length b)%nat.
Proof. unfold hex. induction b as [|x b IH]; cbn [flat_map app List.length]; [reflexivity|]. rewrite IH. lia. Qed.
Lemma hex_digit_inj x y : x < 16 -> y < 16 -> hex_digit x = hex_digit y -> x = y.
Proof. unfold hex_digit. intros A B. destruct (N.ltb_spec x 10), (N.ltb_spec y 10); lia. Qed.
Lemma hex_inj : forall a b, bytes_ok a -> bytes_ok b -> hex a = hex b -> a = b.
Proof.
  induction a as [|x a IH]; intros [|y b] A B E; try discriminate E; [reflexivity|].
  cbn [hex flat_map app] in E. injection E as E1 E2 E3. inversion A as [|? ? X A']; inversion B as [|? ? Y B']; subst.
  assert (XB : x < 256) by exact X. assert (YB : y < 256) by exact Y.
  apply hex_digit_inj in E1; [|apply N.div_lt_upper_bound; lia|apply N.div_lt_upper_bound; lia].
  apply hex_digit_inj in E2; [|apply N.mod_lt; lia|apply N.mod_lt; lia].
  rewrite (IH b A' B' E3). f_equal. rewrite (N.div_mod x 16), (N.div_mod y 16) by lia. congruence.
Qed.
Lemma hex_chars b : bytes_ok b -> Forall (fun c => c <> 109) (hex b).
Proof.
  induction 1 as [|x b X _ IH]; cbn [hex flat_map app]; [constructor|].
  assert (XB : x < 256) by exact X.
  assert (D : forall d, d < 16 -> hex_digit d <> 109) by (intros d L; unfold hex_digit; destruct (N.ltb_spec d 10); lia).
  constructor; [apply D, N.div_lt_upper_bound; lia|]. constructor; [apply D, N.mod_lt; lia|exact IH].
Qed.

Definition is_listc (c : N) : bool := is_digit c || (c =? 44).
Lemma xs_chars l : forallb is_listc (flat_map (fun x => dec x ++ txt ",") l) = true.
Proof.
  induction l as [|x l IH]; cbn [flat_map]; [reflexivity|]. rewrite !forallb_app, IH, andb_true_r. apply andb_true_iff. split; [|reflexivity].
  pose proof (dec_digits x) as D. rewrite forallb_forall in *. intros c I. unfold is_listc. now rewrite (D c I).
Qed.
Lemma xs_inj : forall l l', flat_map (fun x => dec x ++ txt ",") l = flat_map (fun x => dec x ++ txt ",") l' -> l = l'.
Proof.
  assert (C : txt "," = [44]) by reflexivity. rewrite C. clear C.
  induction l as [|x l IH]; intros [|y l'] E; cbn [flat_map] in E; [reflexivity| | |].
  - destruct (dec y); discriminate.
  - destruct (dec x); discriminate.
  - rewrite <- !app_assoc in E. cbn [app] in E. apply (run_front is_digit) in E as (E1 & E2); auto using dec_digits.
    injection E2 as E2. rewrite (dec_inj _ _ E1), (IH _ E2). reflexivity.
Qed.

(** A tag that ends with a character outside of the class, and a run of the class behind it *)
Lemma back_run (f : N -> bool) (lit l0 : list N) x (a a' b b' : list N) : lit = l0 ++ [x] -> f x = false -> forallb f b = true -> forallb f b' = true ->
  (a ++ lit) ++ b = (a' ++ lit) ++ b' -> a = a' /\ b = b'.
Proof.
  intros -> X F F' E. rewrite (app_assoc a l0 [x]), (app_assoc a' l0 [x]) in E. apply (run_back f) in E as (E & ->); auto.
  split; auto. apply app_inv_tail in E. now apply app_inv_tail in E.
Qed.
Lemma back_dec (lit l0 a a' : list N) n n' : lit = l0 ++ [58] -> (a ++ lit) ++ dec n = (a' ++ lit) ++ dec n' -> a = a' /\ n = n'.
Proof. intros L E. apply (back_run is_digit lit l0 58) in E as (-> & E); auto using dec_digits. split; auto. now apply dec_inj. Qed.
Lemma back_hex k (lit a a' : list N) b b' : sized k b -> sized k b' -> (a ++ lit) ++ hex b = (a' ++ lit) ++ hex b' -> a = a' /\ b = b'.
Proof.
  intros (L & B) (L' & B') E. apply cut_back in E as (E1 & E2); [|rewrite !hex_len; congruence]. split; [now apply app_inv_tail in E1|now apply hex_inj].
Qed.
Lemma back_addr (lit a a' : list N) b b' : sized 32 b -> sized 32 b' -> (a ++ lit) ++ addr_to_string b = (a' ++ lit) ++ addr_to_string b' -> a = a' /\ b = b'.
Proof.
  intros B B' E. apply cut_back in E as (E1 & E2); [|rewrite !addr_len; congruence]. split; [now apply app_inv_tail in E1|now apply addr_inj].
Qed.
Lemma back_xs (lit l0 a a' : list N) l l' : lit = l0 ++ [58] -> (a ++ lit) ++ flat_map (fun x => dec x ++ txt ",") l = (a' ++ lit) ++ flat_map (fun x => dec x ++ txt ",") l' -> a = a' /\ l = l'.
Proof. intros L E. apply (back_run is_listc lit l0 58) in E as (-> & E); auto using xs_chars. split; auto. now apply xs_inj. Qed.

(** The proof of a plot with contract and one without never read the same. *)
Lemma kinds_differ (a a' : list N) (c k : list N) : sized 33 k -> a ++ addr_to_string c = a' ++ hex k -> False.
Proof.
  intros (L & B) E. pose proof (hex_chars k B) as F. pose proof (hex_len k) as HL. rewrite L in HL.
  assert (S4 : hex k = firstn 4 (hex k) ++ skipn 4 (hex k)) by now rewrite firstn_skipn.
  rewrite S4, app_assoc in E. apply cut_back in E as (_ & E); [|rewrite skipn_length, HL, addr_len; reflexivity].
  destruct (addr_head c) as (r & R). rewrite R in E.
  assert (In 109 (hex k)). { rewrite S4. apply in_or_app. right. rewrite <- E. now left. }
  rewrite Forall_forall in F. now apply (F 109).
Qed.

Ltac tag := match goal with |- txt ?s = _ => let v := eval vm_compute in (txt s) in let r := eval vm_compute in (removelast v) in instantiate (1 := r); reflexivity end.
Lemma tail_inj u u' p q : proof_fits p -> proof_fits q -> u ++ proof_text p = u' ++ proof_text q -> u = u' /\ same_proof p q.
Proof.
  intros (P1 & P2 & P3 & P4 & P5) (Q1 & Q2 & Q3 & Q4 & Q5) E. unfold same_proof. unfold proof_text in E.
  destruct p as [ps pid pc pd pk pks psd pxs pct], q as [qs qid qc qd qk qks qsd qxs qct].
  cbn [p_score p_plot_id p_challenge p_difficulty p_farmer_key p_ksize p_seed p_xs p_contract] in *.
  destruct pct as [c|], qct as [c'|]; rewrite ?app_nil_r, !app_assoc in E.
  - apply back_addr in E as (E & ->); auto.
    eapply back_xs in E as (E & ->); [|tag].
    apply (back_hex 32) in E as (E & ->); auto.
    eapply back_dec in E as (E & ->); [|tag].
    apply (back_hex 33) in E as (E & ->); auto.
    eapply back_dec in E as (E & ->); [|tag].
    apply (back_hex 32) in E as (E & ->); auto.
    apply (back_hex 32) in E as (E & ->); auto.
    eapply back_dec in E as (E & ->); [|tag].
    apply app_inv_tail in E. auto.
  - exfalso. exact (kinds_differ _ _ _ _ Q3 E).
  - exfalso. symmetry in E. exact (kinds_differ _ _ _ _ P3 E).
  - apply (back_hex 33) in E as (E & ->); auto.
    eapply back_dec in E as (E & ->); [|tag].
    apply (back_hex 32) in E as (E & ->); auto.
    apply (back_hex 32) in E as (E & ->); auto.
    eapply back_dec in E as (E & ->); [|tag].
    apply app_inv_tail in E. repeat split; auto.
Qed.

Lemma front_dec n n' x b b' : is_digit x = false -> dec n ++ x :: b = dec n' ++ x :: b' -> n = n' /\ b = b'.
Proof. intros X E. apply (run_front is_digit) in E as (E1 & E2); auto using dec_digits. injection E2 as E2. split; auto. now apply dec_inj. Qed.
Lemma front_addr a a' b b' : sized 32 a -> sized 32 a' -> addr_to_string a ++ b = addr_to_string a' ++ b' -> a = a' /\ b = b'.
Proof. intros A A' E. apply cut_front in E as (E1 & E2); [|rewrite !addr_len; reflexivity]. split; auto. now apply addr_inj. Qed.

Theorem text_inj m m' p q : fits m -> fits m' -> m_proof m = Some p -> m_proof m' = Some q -> text m = text m' ->
  m_vdf_height m = m_vdf_height m' /\ m_contract m = m_contract m' /\ m_account m = m_account m' /\ m_lookup_ms m = m_lookup_ms m' /\ same_proof p q /\
  m_pool_url m ++ txt "harvester:" ++ m_harvester m = m_pool_url m' ++ txt "harvester:" ++ m_harvester m'.
Proof.
  intros (F1 & F2 & F3) (G1 & G2 & G3) P Q E. rewrite P in F3. rewrite Q in G3. unfold text in E. rewrite P, Q in E.
  destruct m as [h ha c a u n t mp s], m' as [h' ha' c' a' u' n' t' mp' s'].
  cbn [m_vdf_height m_contract m_account m_pool_url m_harvester m_lookup_ms m_proof] in *.
  apply app_inv_head in E. apply app_inv_head in E.
  assert (C : exists r, txt "contract:" = 99 :: r) by (eexists; reflexivity). destruct C as (r & C). rewrite C in E. cbn [app] in E.
  apply front_dec in E as (-> & E); [|reflexivity]. apply app_inv_head in E.
  apply front_addr in E as (-> & E); auto. apply app_inv_head in E.
  apply front_addr in E as (-> & E); auto. apply app_inv_head in E.
  rewrite !app_assoc in E. apply tail_inj in E as (E & SP); auto. apply app_inv_tail in E.
  eapply back_dec in E as (E & ->); [|tag]. rewrite <- !app_assoc in E. repeat split; auto.
Qed.

(** ** The checks *)
Lemma beq_iff a b : beq a b = true <-> a = b.
Proof. unfold beq. destruct (list_eq_dec N.eq_dec a b); split; congruence. Qed.
Lemma target_eq contracts height version a f : get_plot_nft_target contracts height version a f =
  match contracts a with
  | Some (PlotNFT v) => if match PlotNft.unlock_height v with None => true | Some u => height <? u end then PlotNft.target v else match f with Some x => Some x | None => Some (PlotNft.owner v) end
  | _ => Some a
  end.
Proof. unfold get_plot_nft_target. destruct (contracts a) as [[v|]|]; reflexivity. Qed.
Definition locked_b (v : PlotNft.vars) (h : N) : bool := match PlotNft.unlock_height v with None => true | Some u => h <? u end.
Lemma locked_iff v h : locked_b v h = true <-> locked v h.
Proof. unfold locked_b, locked. destruct (PlotNft.unlock_height v); [apply N.ltb_lt|tauto]. Qed.
Lemma plot_target contracts height version a t : verify_plot_nft_target contracts height version a t = NONE <->
  exists v, contracts a = Some (PlotNFT v) /\ names v height t.
Proof.
  unfold verify_plot_nft_target. rewrite target_eq. destruct (contracts a) as [[v|]|] eqn:C; [|split; [discriminate|intros (v & X & _); discriminate]..].
  fold (locked_b v height). pose proof (locked_iff v height) as L. unfold names.
  split.
  - intros E. exists v. split; auto. destruct (locked_b v height).
    + left. split; [now apply L|]. destruct (PlotNft.target v) as [x|]; [|discriminate]. destruct (addr_eqb_spec x t); [congruence|discriminate].
    + right. split; [intros X; apply L in X; discriminate|]. destruct (addr_eqb_spec (PlotNft.owner v) t); [congruence|discriminate].
  - intros (v' & X & N). injection X as <-. destruct N as [(A & B)|(A & B)].
    + apply L in A. rewrite A, B. destruct (addr_eqb_spec t t); congruence.
    + destruct (locked_b v height); [exfalso; apply A; now apply L|]. rewrite B. destruct (addr_eqb_spec t t); congruence.
Qed.

(** Kept until then, whatever is called *)
Lemma unlock_again x e p m y : happens PlotNft.exec x (Call e PlotNft.Unlock) p m y -> PlotNft.unlock_height (fst x) <> None -> fst y = fst x.
Proof.
  intros HP U. inversion HP as [s bal e' me c E|]; subst; cbn [fst snd] in *. cbn [PlotNft.exec] in E. unfold PlotNft.check_owner in E. step E.
  steps H. step E. simp H. cbn [begin c_vars] in *. destruct (PlotNft.unlock_height s) as [u|]; [|congruence]. now simp E.
Qed.
Lemma keeps x ev p m y u : happens PlotNft.exec x ev p m y -> PlotNft.unlock_height (fst x) = Some u -> (forall e, ev <> Call e PlotNft.Unlock) ->
  match ev with Call e _ => e_height e < u | Receive _ _ => True end -> PlotNft.unlock_height (fst y) = Some u.
Proof.
  intros HP U N LK. inversion HP as [s bal e me c E|s bal cu n]; subst; cbn [fst snd] in *; [|exact U].
  destruct me as [t'| |cu|a|]; cbn [PlotNft.exec] in E; unfold PlotNft.check_owner, PlotNft.is_locked in E; step E.
  - steps H. step E. steps H. cbn [begin c_vars] in *. rewrite U in E. apply N.ltb_lt in LK. rewrite LK in E. step E. simp H. discriminate.
  - exfalso. now apply (N e).
  - pose proof LK as LKB. apply N.ltb_lt in LKB.
    steps H. cbn [begin c_vars] in *. rewrite U, LKB in E. step E. simp H. step E. simp H. step E. simp H. cbn [begin c_vars] in *. step E. simp H.
    destruct (e_user e) as [a|] eqn:EU; [apply send_inv in E as [(_ & ->)|(_ & _ & ->)]; exact U|].
    match type of E with (if ?b then _ else _) _ _ = _ => destruct b end; [simp E; exact U|discriminate E].
  - steps H. step E. simp H. simp E. exact U.
  - simp H. step E. simp H. steps E. exact U.
Qed.
Lemma held t g x h l y k : history PlotNft.exec x h l y k -> PlotNft.target (fst x) = Some t -> k <= g -> g < held_until (fst x) h -> g < 2 ^ 64 ->
  locked (fst y) g /\ PlotNft.target (fst y) = Some t.
Proof.
  intros H T LE GH GB. unfold held_until in GH.
  induction H as [x h|x h ev p m y l z h' k HP HH L H' IH].
  - split; auto. unfold locked. destruct (PlotNft.unlock_height (fst x)); auto.
  - pose proof (height_mono _ _ _ _ _ _ H') as HM.
    destruct (PlotNft.unlock_height (fst x)) as [u|] eqn:UH.
    + assert (D : (exists e, ev = Call e PlotNft.Unlock) \/ (forall e, ev <> Call e PlotNft.Unlock)).
      { destruct ev as [e me|]; [|right; congruence]. destruct me; [right; congruence|left; eauto|right; congruence..]. }
      destruct D as [(e & ->)|D].
      * pose proof (unlock_again _ _ _ _ _ HP ltac:(congruence)) as Y. apply IH; rewrite ?Y; auto. now rewrite UH.
      * edestruct (plot_step t g) as (T' & W' & _); [exact HP|exact HH|lia|exact GB|exact T|exact UH|exact GH| |].
        { intros e X. exfalso. now apply (D e). }
        apply IH; auto. rewrite (keeps _ _ _ _ _ u HP UH D); [exact GH|]. destruct ev; auto. lia.
    + edestruct (plot_step t g) as (T' & W' & _); [exact HP|exact HH|lia|exact GB|exact T|exact UH|exact I| |].
      { intros e ->. lia. }
      apply IH; auto. destruct (PlotNft.unlock_height (fst y)); [exact W'|lia].
Qed.
