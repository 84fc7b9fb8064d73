(** Proofs about what the node tells about offers and trades *)
Require Import List Arith NArith ZArith Bool Lia Sorted Permutation.
From Verif Require Import BytesLib OrdLib EngineModel EngineUpper CtrModel CtrSpec CtrProofs OfferProps HistModel HistSpec HistProofs OfqModel OfqSpec.
Import List ListNotations.
Open Scope N_scope.

(** ** Calls of offers *)
Lemma usub_same {S} l r e (c : ctr S) d c' : usub l r e c = Some (d, c') -> c' = c.
Proof. unfold usub. destruct (_ <? _); [discriminate|]. now intros [= _ <-]. Qed.
Definition same_terms (v v' : Offer.vars) : Prop :=
  Offer.owner v' = Offer.owner v /\ Offer.partner v' = Offer.partner v /\ Offer.bid_currency v' = Offer.bid_currency v /\ Offer.ask_currency v' = Offer.ask_currency v.
Lemma exec_terms me e v bal c : Offer.exec me e (begin e v bal) = Some (tt, c) -> same_terms v (c_vars c) /\ (0 < Offer.inv_price v -> 0 < Offer.inv_price (c_vars c)).
Proof.
  intros E. assert (Q : c_vars c = v \/ exists p h, 0 < p /\ c_vars c = Offer.mk (Offer.owner v) (Offer.partner v) (Offer.bid_currency v) (Offer.ask_currency v) p h).
  { destruct me as [| | |n cu|pr|d pr|d pr]; cbn [Offer.exec] in E; unfold Offer.check_owner in E.
    - steps E. auto.
    - step E. steps H. step E. simp H. step E. simp H. apply send_inv in E as [(_ & ->)|(_ & _ & ->)]; auto.
    - step E. steps H. step E. simp H. step E. simp H. apply send_inv in E as [(_ & ->)|(_ & _ & ->)]; auto.
    - step E. steps H. step E. simp H. apply send_inv in E as [(_ & ->)|(_ & _ & ->)]; auto.
    - step E. steps H. step E. simp H. step E. simp H. step E. apply usub_same in H. subst. step E. simp H. step E. simp H. apply N.ltb_lt in E1.
      destruct (pr =? _); simp E; auto. right. exists pr, (CtrModel.e_height e). auto.
    - step E. apply partner_ok in H as (-> & _). step E. simp H. step E. simp H. step E. simp H. step E. simp H0. step E. apply umul_le in H0 as (_ & _ & ->). step E. unfold ushr in H0. simp H0. step E. simp H0.
      apply send_inv in E as [(_ & ->)|(_ & _ & ->)]; auto.
    - step E. apply partner_ok in H as (-> & _). step E. simp H. step E. simp H. step E. simp H. step E. simp H0. step E. apply umul_le in H0 as (_ & _ & ->). step E. unfold ushr in H0. simp H0. step E. simp H0.
      cbv zeta in E. step E. simp H0. step E. unfold ushl in H0. simp H0. step E. apply uadd_same in H0. subst. step E. apply usub_same in H0. subst.
      step E. apply udiv_inv in H0 as (_ & _ & ->). step E. apply usub_same in H0. subst.
      step E. assert (V0 : c_vars c0 = v) by (apply send_inv in H0 as [(_ & ->)|(_ & _ & ->)]; auto). apply send_inv in E as [(_ & ->)|(_ & _ & ->)]; auto. }
  destruct Q as [->|(p & h & P & ->)]; (split; [repeat split|auto]).
Qed.
Lemma exec_named me e v bal c p : trade_price me = Some p -> Offer.exec me e (begin e v bal) = Some (tt, c) ->
  p = Offer.inv_price v /\ exists amount, e_deposit e = Some (Offer.ask_currency v, amount).
Proof.
  intros T E. destruct me as [| | |n cu|pr|d pr|d pr]; try discriminate; injection T as ->; cbn [Offer.exec] in E; unfold Offer.check_owner in E.
  all: step E; apply partner_ok in H as (-> & _); step E; simp H; step E; simp H; step E; simp H; step E; simp H0; apply N.eqb_eq in E0; cbn [begin c_vars] in *;
    match goal with D : e_deposit _ = Some ?x |- _ => destruct x as (cur, amount) end; cbn [fst] in *; match goal with D : addr_eqb ?x ?y = true |- _ => destruct (addr_eqb_spec x y) as [->|]; [eauto|discriminate] end.
Qed.

(** ** Tables *)
Definition tbl {V} (l : list (key * V)) (R : key -> V -> Prop) : Prop := asorted key_cmp l /\ forall k v, In (k, v) l <-> R k v.
Lemma tbl_add {V} (l : list (key * V)) R k v : tbl l R -> (forall v', R k v' -> v' = v) -> tbl (aset key_cmp k v l) (fun k' v' => (k' = k /\ v' = v) \/ R k' v').
Proof.
  intros (S1 & I) U. split; [now apply (aset_sorted KT)|]. intros k' v'. rewrite (aset_In KT) by auto. rewrite I. split.
  - intros [(-> & ->)|(NE & Q)]; auto.
  - intros [(-> & ->)|Q]; auto. destruct (key_cmp k' k) eqn:C.
    + apply (tc_eq KT) in C. subst k'. left. split; auto.
    + right. split; auto. intros ->. rewrite (cmp_refl KT) in C. discriminate.
    + right. split; auto. intros ->. rewrite (cmp_refl KT) in C. discriminate.
Qed.
Lemma tbl_ext {V} (l : list (key * V)) R R' : tbl l R -> (forall k v, R k v <-> R' k v) -> tbl l R'.
Proof. intros (S1 & I) E. split; auto. intros k v. rewrite I. auto. Qed.

(** ** What the tables have *)
Section INV.
  Variables (H : bytes -> addr) (binary : addr).
  Definition before (h' t' h t : N) : Prop := h' < h \/ (h' = h /\ t' < t).
  Definition row (x : addr) (h t : N) : key := ((x, h), t).
  Definition post_rows (names : posted -> list addr) (P : list posted) (k : key) (v : addr) : Prop :=
    exists p x, In p P /\ In x (names p) /\ k = row x (p_height p) (p_ticket p) /\ v = p_id p.
  Definition marked (bid ask : addr) : list addr := map H (marks ask bid).
  (** the currency a trade is found under *)
  Definition shown_bid (g : fact) : addr := if g_deployed g <? g_height g then g_bid g else native.
  Definition trade_rows (F : list fact) (k : key) (v : trade) : Prop :=
    exists g, In g F /\ g_direct g = true /\ k = row [] (g_height g) (g_ticket g) /\ v = mk_trade (g_offer g) (g_offered g) (g_price g mod 2 ^ 128).
  Definition traded_rows (F : list fact) (k : key) (v : unit) : Prop :=
    exists g x, In g F /\ g_direct g = true /\ In x (marked (shown_bid g) (g_ask g)) /\ k = row x (g_height g) (g_ticket g).
  (** what is true of a trade whatever comes later *)
  Definition fine (g : fact) : Prop :=
    g_had g < 2 ^ 128 -> g_offered g < 2 ^ 128 -> g_price g < 2 ^ 128 ->
    g_gave g <= g_offered g * g_price g / 2 ^ 64 /\ g_got g <= g_offered g /\ (g_plain g = true -> g_gave g = g_offered g * g_price g / 2 ^ 64 /\ g_got g = g_offered g).

  Record inv (base : world) (P : list posted) (F : list fact) (h t : N) (s : state) : Prop := mk_inv {
    i_world : forall a f, s_world s a = Some f -> (exists p, In p P /\ p_id p = a /\ p_height p = f_height f /\ p_owner p = Offer.owner (f_vars f) /\
                p_bid p = Offer.bid_currency (f_vars f) /\ p_ask p = Offer.ask_currency (f_vars f)) /\ Offer.bid_currency (f_vars f) <> Offer.ask_currency (f_vars f) /\ 0 < Offer.inv_price (f_vars f);
    i_there : forall p, In p P -> exists f, s_world s (p_id p) = Some f;
    i_once : NoDup (map p_id P);
    i_log : tbl (s_log s) (post_rows (fun _ => [binary]) P);
    i_index : tbl (s_index s) (post_rows (fun p => marked (p_bid p) (p_ask p)) P);
    i_owned : tbl (s_owned s) (post_rows (fun p => [p_owner p]) P);
    i_trades : tbl (s_trades s) (trade_rows F);
    i_traded : tbl (s_traded s) (traded_rows F);
    i_posts : forall p, In p P -> before (p_height p) (p_ticket p) h t;
    i_facts : forall g, In g F -> g_direct g = true -> before (g_height g) (g_ticket g) h t;
    i_order : StronglySorted (fun x y => before (g_height x) (g_ticket x) (g_height y) (g_ticket y)) (filter g_direct F);
    i_fine : forall g, In g F -> fine g /\ exists f, s_world s (g_offer g) = Some f /\ Offer.bid_currency (f_vars f) = g_bid g /\ Offer.ask_currency (f_vars f) = g_ask g;
    i_base : forall a f, s_world s a = Some f -> f_height f <= h /\ stored_bid base a = if f_height f <? h then Offer.bid_currency (f_vars f) else native;
    i_none : forall a, s_world s a = None -> base a = None }.
  Lemma set_same w a f : set_offer w a f a = Some f.
  Proof. unfold set_offer. now rewrite addr_eqb_refl. Qed.
  Lemma set_other w a f x : x <> a -> set_offer w a f x = w x.
  Proof. intros NE. unfold set_offer. destruct (addr_eqb_spec x a); congruence. Qed.
  Lemma set_none w a f x : set_offer w a f x = None -> w x = None.
  Proof. unfold set_offer. now destruct (addr_eqb x a). Qed.
  Lemma nodup_snoc {A} (l : list A) x : NoDup l -> ~ In x l -> NoDup (l ++ [x]).
  Proof.
    intros D I. apply (Permutation_NoDup (Permutation_cons_append l x)). constructor; auto.
  Qed.
  Lemma before_irrefl h t : ~ before h t h t. Proof. unfold before. lia. Qed.

  Lemma inv_later base P F h t t' s : inv base P F h t s -> t <= t' -> inv base P F h t' s.
  Proof.
    intros [A B C D E G I J K L M N O O'] LE. constructor; auto.
    - intros p X. specialize (K _ X). unfold before in *. lia.
    - intros g X Y. specialize (L _ X Y). unfold before in *. lia.
  Qed.
  Lemma inv_change base P F h t s a f f' : inv base P F h t s -> s_world s a = Some f -> same_terms (f_vars f) (f_vars f') -> f_height f' = f_height f -> 0 < Offer.inv_price (f_vars f') ->
    inv base P F h t (with_world s (set_offer (s_world s) a f')).
  Proof.
    intros [A B C D E G I J K L M N O O'] W (T1 & T2 & T3 & T4) HH PP. constructor; cbn [with_world s_world s_log s_index s_owned s_trades s_traded]; auto.
    - intros x y. destruct (addr_eqb_spec x a) as [->|NE].
      + rewrite set_same. intros [= <-]. rewrite T1, T3, T4, HH. destruct (A _ _ W) as (A1 & A2 & A3). auto.
      + rewrite set_other by auto. apply A.
    - intros p X. destruct (addr_eqb_spec (p_id p) a) as [->|NE]; [rewrite set_same; eauto|rewrite set_other by auto; auto].
    - intros g X. destruct (N _ X) as (N1 & y & N2 & N3 & N4). split; auto. destruct (addr_eqb_spec (g_offer g) a) as [Q|NE].
      + rewrite Q in *. rewrite set_same. exists f'. rewrite T3, T4. rewrite W in N2. injection N2 as <-. auto.
      + rewrite set_other by auto. eauto.
    - intros x y. destruct (addr_eqb_spec x a) as [->|NE].
      + rewrite set_same. intros [= <-]. rewrite HH, T3. auto.
      + rewrite set_other by auto. apply O.
    - intros x X. apply set_none in X. auto.
  Qed.
  Lemma inv_aside base P F h t s g : inv base P F h t s -> g_direct g = false -> fine g ->
    (exists f, s_world s (g_offer g) = Some f /\ Offer.bid_currency (f_vars f) = g_bid g /\ Offer.ask_currency (f_vars f) = g_ask g) -> inv base P (F ++ [g]) h t s.
  Proof.
    intros [A B C D E G I J K L M N O O'] ND FG W. constructor; auto.
    - eapply tbl_ext; [exact I|]. intros k v. unfold trade_rows. split; intros (x & X1 & X2); exists x; (split; [|exact X2]); [apply in_app_iff; auto|].
      apply in_app_iff in X1 as [X1|[<-|[]]]; auto. destruct X2 as (X2 & _). congruence.
    - eapply tbl_ext; [exact J|]. intros k v. unfold traded_rows. split; intros (x & z & X1 & X2); exists x, z; (split; [|exact X2]); [apply in_app_iff; auto|].
      apply in_app_iff in X1 as [X1|[<-|[]]]; auto. destruct X2 as (X2 & _). congruence.
    - intros x X Y. apply in_app_iff in X as [X|[<-|[]]]; auto. congruence.
    - rewrite filter_app. cbn [filter]. rewrite ND, app_nil_r. auto.
    - intros x X. apply in_app_iff in X as [X|[<-|[]]]; auto.
  Qed.
  Lemma tbl_three {V} (l : list (key * V)) R ask bid h t v : tbl l R -> (forall x v', R (row x h t) v' -> v' = v) ->
    tbl (index3 H ask bid h t v l) (fun k' v' => (exists x, In x (marked bid ask) /\ k' = row x h t /\ v' = v) \/ R k' v').
  Proof.
    intros T U. unfold index3. eapply tbl_ext; [apply tbl_add; [apply tbl_add; [apply tbl_add; [exact T|]|]|]|].
    - intros v'. apply U.
    - intros v' [(_ & ->)|Q]; auto. eapply U; eauto.
    - intros v' [(_ & ->)|[(_ & ->)|Q]]; auto. eapply U; eauto.
    - intros k v'. unfold marked, marks. cbn [map In]. split.
      + intros [(-> & ->)|[(-> & ->)|[(-> & ->)|Q]]]; auto; left; eexists; (split; [|split; reflexivity]); auto.
      + intros [(x & [<-|[<-|[<-|[]]]] & -> & ->)|Q]; auto.
  Qed.
  Lemma inv_deploy base P F h t s id owner bid ask price partner v : inv base P F h t s -> s_world s id = None -> Offer.init owner bid ask price partner h = Some v ->
    inv base (P ++ [mk_posted h t id owner bid ask]) F h (t + 1)
      (mk_state (set_offer (s_world s) id (mk_offer v (fun _ => 0) h)) (aset key_cmp ((binary, h), t) id (s_log s)) (index3 H ask bid h t id (s_index s))
        (aset key_cmp ((owner, h), t) id (s_owned s)) (s_trades s) (s_traded s)).
  Proof.
    intros [A B C D E G I J K L M N O O'] W Q. pose proof (O' _ W) as BN. unfold Offer.init in Q. destruct (N.ltb_spec 0 price); [|discriminate]. destruct (addr_eqb_spec bid ask) as [|NE]; [discriminate|]. injection Q as <-.
    assert (FR : forall names x v', post_rows names P (row x h t) v' -> v' = id).
    { intros names x v' (p & y & X & _ & Y & _). exfalso. injection Y as _ Y1 Y2. specialize (K _ X). rewrite <- Y1, <- Y2 in K. now apply before_irrefl in K. }
    assert (ROW : forall names k v, post_rows names (P ++ [mk_posted h t id owner bid ask]) k v <-> (exists x, In x (names (mk_posted h t id owner bid ask)) /\ k = row x h t /\ v = id) \/ post_rows names P k v).
    { intros names k v. unfold post_rows. split.
      - intros (p & x & X & Y). apply in_app_iff in X as [X|[<-|[]]]; [right; eauto|left; exists x; exact Y].
      - intros [(x & X)|(p & x & X & Y)]; [exists (mk_posted h t id owner bid ask), x|exists p, x]; (split; [apply in_app_iff; cbn; auto|exact X || exact Y]). }
    constructor; cbn [s_world s_log s_index s_owned s_trades s_traded]; auto.
    - intros a f. destruct (addr_eqb_spec a id) as [->|NI].
      + rewrite set_same. intros [= <-]. cbn. split; [|auto]. eexists. split; [apply in_app_iff; right; left; reflexivity|]. cbn. auto 10.
      + rewrite set_other by auto. intros X. destruct (A _ _ X) as ((p & A1 & A2) & A3). split; auto. exists p. split; auto. apply in_app_iff; auto.
    - intros p X. destruct (addr_eqb_spec (p_id p) id) as [->|NI]; [rewrite set_same; eauto|rewrite set_other by auto]. apply in_app_iff in X as [X|[<-|[]]]; auto. now contradict NI.
    - rewrite map_app. cbn [map p_id]. apply nodup_snoc; [exact C|]. intros X. apply in_map_iff in X as (p & X1 & X2). destruct (B _ X2) as (f & Y). congruence.
    - eapply tbl_ext; [apply tbl_add; [exact D|intros v'; apply (FR (fun _ => [binary]))]|]. intros k v. rewrite ROW. cbn [In]. split.
      + intros [(-> & ->)|X]; auto. left. exists binary. auto.
      + intros [(x & [<-|[]] & -> & ->)|X]; auto.
    - eapply tbl_ext; [apply tbl_three; [exact E|intros x v'; apply (FR (fun p => marked (p_bid p) (p_ask p)))]|]. intros k v. rewrite ROW. cbn [p_bid p_ask]. tauto.
    - eapply tbl_ext; [apply tbl_add; [exact G|intros v'; apply (FR (fun p => [p_owner p]))]|]. intros k v. rewrite ROW. cbn [In p_owner]. split.
      + intros [(-> & ->)|X]; auto. left. exists owner. auto.
      + intros [(x & [<-|[]] & -> & ->)|X]; auto.
    - intros p X. apply in_app_iff in X as [X|[<-|[]]]; [specialize (K _ X)|]; unfold before in *; cbn; lia.
    - intros g X Y. specialize (L _ X Y). unfold before in *. lia.
    - intros g X. destruct (N _ X) as (N1 & f & N2 & N3). split; auto. exists f. rewrite set_other; [auto|]. intros Z. congruence.
    - intros a f. destruct (addr_eqb_spec a id) as [->|NI].
      + rewrite set_same. intros [= <-]. cbn. split; [lia|]. unfold stored_bid. rewrite BN, N.ltb_irrefl. auto.
      + rewrite set_other by auto. apply O.
    - intros x X. apply set_none in X. auto.
  Qed.
  Lemma call_keeps h f c f' : exec_call h f c = Some f' -> same_terms (f_vars f) (f_vars f') /\ f_height f' = f_height f /\ (0 < Offer.inv_price (f_vars f) -> 0 < Offer.inv_price (f_vars f')).
  Proof.
    unfold exec_call. destruct (Offer.exec _ _ _) as [(u, x)|] eqn:E; [|discriminate]. intros [= <-]. destruct u. apply exec_terms in E as (E1 & E2). cbn. auto.
  Qed.
  Lemma div_le_exact x y : 0 < 2 ^ 64 -> y * 2 ^ 64 <= x -> x < (y + 1) * 2 ^ 64 -> y = x / 2 ^ 64.
  Proof. intros _ L1 L2. apply (N.div_unique x (2 ^ 64) y (x - y * 2 ^ 64)); lia. Qed.
  Lemma fact_shape direct h t c s s' f f' : s_world s (o_offer c) = Some f -> s_world s' (o_offer c) = Some f' -> exec_call h f c = Some f' ->
    Offer.bid_currency (f_vars f) <> Offer.ask_currency (f_vars f) -> 0 < Offer.inv_price (f_vars f) ->
    match trade_price (o_method c), o_deposit c with
    | Some p, Some (cur, amount) => exists g, fact_of direct h t c s s' = [g] /\ g_height g = h /\ g_ticket g = t /\ g_offer g = o_offer c /\ g_deployed g = f_height f /\
        g_bid g = Offer.bid_currency (f_vars f) /\ g_ask g = Offer.ask_currency (f_vars f) /\ cur = g_ask g /\ g_direct g = direct /\ g_offered g = amount /\ g_price g = p /\ fine g
    | _, _ => fact_of direct h t c s s' = []
    end.
  Proof.
    intros W W' X NE PP. unfold fact_of. rewrite W, W'. unfold exec_call in X. destruct (Offer.exec _ _ _) as [(u, x)|] eqn:E; [|discriminate]. injection X as <-. destruct u. cbn [f_bal].
    destruct (trade_price (o_method c)) as [p|] eqn:TP.
    2: { destruct (o_deposit c) as [(cur, amount)|]; auto. destruct (o_method c); auto; discriminate. }
    destruct (exec_named _ _ _ _ _ _ TP E) as (-> & amount & DE). cbn [e_deposit] in DE. rewrite DE in *.
    set (v := f_vars f) in *. destruct (o_method c) as [| | |n cu|pr|d pr|d pr] eqn:M; try discriminate; injection TP as ->.
    - eexists. split; [reflexivity|]. cbn. repeat (split; [reflexivity|]). intros B1 B2 B3. cbn [g_gave g_got g_had g_offered g_price g_plain] in *.
      assert (OK : offer_ok v) by (split; auto; split; auto; eapply N.lt_trans; [exact B3|reflexivity]).
      destruct (C44_trade _ _ _ _ _ _ _ _ (happens_call Offer.exec _ _ _ _ _ E) OK) as (am & bid & D & _ & _ & _ & _ & _ & L & L1 & L2 & G1 & G2). cbn [e_deposit] in D. injection D as <-. cbn [snd] in G1, G2.
      rewrite G1, G2. assert (SM : amount * Offer.inv_price v < 2 ^ 256). { apply N.lt_le_trans with (2 ^ 128 * 2 ^ 128); [|discriminate]. apply N.mul_lt_mono; assumption. }
      specialize (L2 SM). pose proof (div_le_exact _ _ eq_refl L1 L2) as Q. rewrite <- Q. clear - L. lia.
    - eexists. split; [reflexivity|]. cbn. repeat (split; [reflexivity|]). intros B1 B2 B3. cbn [g_gave g_got g_had g_offered g_price g_plain] in *.
      assert (OK : offer_ok v) by (split; auto; split; auto; eapply N.lt_trans; [exact B3|reflexivity]).
      destruct (C44_accept _ _ _ _ _ _ _ _ (happens_call Offer.exec _ _ _ _ _ E) OK) as (am & bid & ask & D & _ & _ & _ & _ & _ & L & LA & L1 & L2 & G1 & G2); auto.
      { intros cur n [= _ <-]. auto. }
      cbn [e_deposit] in D. injection D as <-. cbn [snd] in G1, G2. rewrite G1, G2. split; [|split; [lia|discriminate]].
      replace (_ - (_ - bid)) with bid by (clear - L; lia). apply N.div_le_lower_bound; [discriminate|]. rewrite N.mul_comm. etransitivity; [exact L1|]. now apply N.mul_le_mono_r.
  Qed.
  Lemma inv_trade base P F h t s g : inv base P F h t s -> g_direct g = true -> fine g -> g_height g = h -> g_ticket g = t ->
    (exists f, s_world s (g_offer g) = Some f /\ Offer.bid_currency (f_vars f) = g_bid g /\ Offer.ask_currency (f_vars f) = g_ask g) ->
    inv base P (F ++ [g]) h (t + 1) (mk_state (s_world s) (s_log s) (s_index s) (s_owned s)
      (aset key_cmp (([], h), t) (mk_trade (g_offer g) (g_offered g) (g_price g mod 2 ^ 128)) (s_trades s)) (index3 H (g_ask g) (shown_bid g) h t tt (s_traded s))).
  Proof.
    intros V DI FG HG TG W. apply (inv_later _ _ _ _ _ (t + 1)) in V as V'; [|lia]. destruct V as [_ _ _ _ _ _ I J _ L M _ _ _]. destruct V' as [A B C D E G _ _ K L' _ N O O'].
    assert (FR : forall k, k_height k = h -> snd k = t -> forall v, ~ trade_rows F k v).
    { intros k Q1 Q2 v (x & X1 & X2 & -> & _). specialize (L _ X1 X2). unfold row, k_height in Q1, Q2. cbn in Q1, Q2. rewrite Q1, Q2 in L. now apply before_irrefl in L. }
    assert (FR' : forall k, k_height k = h -> snd k = t -> forall v, ~ traded_rows F k v).
    { intros k Q1 Q2 v (x & z & X1 & X2 & _ & ->). specialize (L _ X1 X2). unfold row, k_height in Q1, Q2. cbn in Q1, Q2. rewrite Q1, Q2 in L. now apply before_irrefl in L. }
    constructor; cbn [s_world s_log s_index s_owned s_trades s_traded]; auto.
    - eapply tbl_ext; [apply tbl_add; [exact I|]|].
      + intros v' X. exfalso. eapply FR; [| |exact X]; reflexivity.
      + intros k v. split.
        * intros [(-> & ->)|(x & X1 & X2)]; [exists g|exists x]; (split; [apply in_app_iff; cbn; auto|]); auto. rewrite HG, TG. auto.
        * intros (x & X1 & X2). apply in_app_iff in X1 as [X1|[<-|[]]]; [right; exists x; auto|left]. rewrite HG, TG in X2. destruct X2 as (_ & X2 & X3). auto.
    - eapply tbl_ext; [apply tbl_three; [exact J|]|].
      + intros x v' X. destruct v'. reflexivity.
      + intros k v. split.
        * intros [(x & X1 & -> & ->)|(y & x & X1 & X2)]; [exists g, x|exists y, x]; (split; [apply in_app_iff; cbn; auto|]); auto. rewrite HG, TG. auto.
        * intros (y & x & X1 & X2). apply in_app_iff in X1 as [X1|[<-|[]]]; [right; exists y, x; auto|left]. rewrite HG, TG in X2. destruct X2 as (_ & X2 & X3). exists x. destruct v. auto.
    - intros x X Y. apply in_app_iff in X as [X|[<-|[]]]; auto. unfold before. lia.
    - rewrite filter_app. cbn [filter]. rewrite DI. clear - M L HG TG.
      assert (Q : forall x, In x (filter g_direct F) -> before (g_height x) (g_ticket x) (g_height g) (g_ticket g)) by (intros x X; apply filter_In in X as (X1 & X2); rewrite HG, TG; auto).
      revert M Q. generalize (filter g_direct F). clear. induction l as [|x l IH]; cbn [app]; intros S Q; [repeat constructor|]. inversion_clear S as [|? ? S' FA]. constructor.
      + apply IH; auto. intros y Y. apply Q. now right.
      + apply Forall_app. split; auto. constructor; [apply Q; now left|constructor].
    - intros x X. apply in_app_iff in X as [X|[<-|[]]]; auto.
  Qed.

  Definition posted1 (h t : N) (i : item) : list posted := match i with Deploy id owner bid ask _ _ => [mk_posted h t id owner bid ask] | _ => [] end.
  Definition facts1 (h t : N) (s s' : state) (i : item) : list fact := match i with Op c => fact_of true h t c s s' | Nested c => fact_of false h t c s s' | _ => [] end.
  Lemma step_inv base P F h t s i s' t' : inv base P F h t s -> step H binary base h t s i = Some (s', t') ->
    t' = next t i /\ inv base (P ++ posted1 h t i) (F ++ facts1 h t s s' i) h t' s'.
  Proof.
    intros V E. destruct i as [id owner bid ask price partner|c|c|a cur amount|]; cbn [step posted1 facts1] in *; unfold next; cbn [takes_number]; rewrite ?app_nil_r.
    - destruct (s_world s id) eqn:W; [discriminate|]. destruct (Offer.init _ _ _ _ _ _) as [v|] eqn:Q; [|discriminate]. injection E as <- <-. split; auto. eapply inv_deploy; eauto.
    - destruct (s_world s (o_offer c)) as [f|] eqn:W; [|discriminate]. destruct (exec_call h f c) as [f'|] eqn:X; [|discriminate]. injection E as <- <-. split; auto.
      destruct (i_world _ _ _ _ _ _ V _ _ W) as (_ & NE & PP). pose proof (call_keeps _ _ _ _ X) as (K1 & K2 & K3).
      pose proof (inv_change _ _ _ _ _ _ _ _ _ V W K1 K2 (K3 PP)) as V1. set (s1 := with_world s (set_offer (s_world s) (o_offer c) f')) in *.
      assert (W1 : s_world s1 (o_offer c) = Some f') by apply set_same.
      assert (W2 : s_world (note_trade H base h t c s1) (o_offer c) = Some f').
      { unfold note_trade. destruct (trade_price _); auto. destruct (o_deposit c) as [(?, ?)|]; auto. }
      pose proof (fact_shape true h t c s (note_trade H base h t c s1) f f' W W2 X NE PP) as FS. unfold note_trade in FS |- *.
      destruct (trade_price (o_method c)) as [p|]; [|rewrite FS, app_nil_r; apply (inv_later _ _ _ _ t); auto; lia].
      destruct (o_deposit c) as [(cur, amount)|]; [|rewrite FS, app_nil_r; apply (inv_later _ _ _ _ t); auto; lia].
      destruct FS as (g & -> & G1 & G2 & G3 & G4 & G5 & G6 & G7 & G8 & G9 & G10 & G11). destruct K1 as (K11 & K12 & K13 & K14).
      assert (SB : stored_bid base (o_offer c) = shown_bid g).
      { destruct (i_base _ _ _ _ _ _ V _ _ W) as (_ & ->). unfold shown_bid. now rewrite G4, G1, G5. }
      rewrite SB, G7, <- G3, <- G9, <- G10. apply inv_trade; auto. exists f'. rewrite G3, K13, K14, G5, G6. auto.
    - destruct (s_world s (o_offer c)) as [f|] eqn:W; [|discriminate]. destruct (exec_call h f c) as [f'|] eqn:X; [|discriminate]. injection E as <- <-. split; auto.
      destruct (i_world _ _ _ _ _ _ V _ _ W) as (_ & NE & PP). pose proof (call_keeps _ _ _ _ X) as (K1 & K2 & K3).
      pose proof (inv_change _ _ _ _ _ _ _ _ _ V W K1 K2 (K3 PP)) as V1. set (s1 := with_world s (set_offer (s_world s) (o_offer c) f')) in *.
      assert (W1 : s_world s1 (o_offer c) = Some f') by apply set_same.
      pose proof (fact_shape false h t c s s1 f f' W W1 X NE PP) as FS.
      destruct (trade_price (o_method c)) as [p|]; [|rewrite FS, app_nil_r; auto].
      destruct (o_deposit c) as [(cur, amount)|]; [|rewrite FS, app_nil_r; auto].
      destruct FS as (g & -> & G1 & G2 & G3 & G4 & G5 & G6 & G7 & G8 & G9 & G10 & G11). destruct K1 as (K11 & K12 & K13 & K14).
      apply inv_aside; auto. exists f'. rewrite G3, K13, K14, G5, G6. auto.
    - destruct (s_world s a) as [f|] eqn:W; [|discriminate]. injection E as <- <-. split; auto. destruct (i_world _ _ _ _ _ _ V _ _ W) as (_ & NE & PP).
      eapply inv_change; eauto. repeat split.
    - injection E as <- <-. split; auto. apply (inv_later _ _ _ _ t); auto. lia.
  Qed.
  Lemma steps_inv base h l : forall P F t s s', inv base P F h t s -> steps H binary base h t s l = Some s' ->
    exists t', t' <= t + N.of_nat (List.length l) /\ inv base (P ++ posted_by h t l) (F ++ facts_items H binary base h t s l) h t' s'.
  Proof.
    induction l as [|i l IH]; cbn [steps posted_by facts_items]; intros P F t s s' V E.
    - injection E as <-. exists t. rewrite !app_nil_r. split; [lia|auto].
    - destruct (step H binary base h t s i) as [(s1, t1)|] eqn:X; [|discriminate]. destruct (step_inv _ _ _ _ _ _ _ _ _ V X) as (-> & V1). destruct (IH _ _ _ _ _ V1 E) as (t' & L & V2).
      exists t'. split; [unfold next in L; destruct (takes_number i); cbn [List.length]; lia|]. rewrite <- !app_assoc in V2. exact V2.
  Qed.
  Lemma inv_block base P F h t s h' t' : inv base P F h t s -> h < h' -> inv (s_world s) P F h' t' s.
  Proof.
    intros [A B C D E G I J K L M N O O'] LT. constructor; auto.
    - intros p X. specialize (K _ X). unfold before in *. lia.
    - intros g X Y. specialize (L _ X Y). unfold before in *. lia.
    - intros a f X. destruct (O _ _ X) as (O1 & _). split; [lia|]. unfold stored_bid. rewrite X. destruct (N.ltb_spec (f_height f) h'); [auto|lia].
  Qed.
  Lemma inv_genesis h t : inv (fun _ => None) [] [] h t genesis.
  Proof.
    assert (T : forall (V : Type) (R : key -> V -> Prop), (forall k v, ~ R k v) -> tbl [] R) by (intros V R N; split; [constructor|intros k v; split; [intros []|intros X; destruct (N _ _ X)]]).
    unfold genesis. constructor; cbn [s_world s_log s_index s_owned s_trades s_traded]; try (intros; discriminate).
    - intros p [].
    - constructor.
    - apply T. intros k v (p & x & [] & _).
    - apply T. intros k v (p & x & [] & _).
    - apply T. intros k v (p & x & [] & _).
    - apply T. intros k v (p & [] & _).
    - apply T. intros k v (p & x & [] & _).
    - intros p [].
    - intros p [].
    - constructor.
    - intros p [].
    - auto.
  Qed.
  Lemma run_inv chain : forall base P F h t s s', inv base P F h t s -> StronglySorted (fun x y => b_height x < b_height y) chain -> (forall b, In b chain -> h < b_height b) ->
    run H binary s chain = Some s' -> exists base' h' t', inv base' (P ++ posted_in chain) (F ++ facts H binary s chain) h' t' s'.
  Proof.
    induction chain as [|b chain IH]; cbn [run facts]; unfold posted_in; cbn [flat_map]; intros base P F h t s s' V S LT E.
    - injection E as <-. rewrite !app_nil_r. eauto.
    - destruct (steps H binary (s_world s) (b_height b) (b_start b) s (b_items b)) as [s1|] eqn:X; [|discriminate].
      pose proof (inv_block _ _ _ _ _ _ (b_height b) (b_start b) V (LT _ (or_introl eq_refl))) as V1. destruct (steps_inv _ _ _ _ _ _ _ _ V1 X) as (t' & _ & V2).
      inversion_clear S as [|? ? S' FA]. rewrite Forall_forall in FA. destruct (IH _ _ _ _ _ _ _ V2 S' FA E) as (base' & h' & t'' & V3). exists base', h', t''. rewrite <- !app_assoc in V3. exact V3.
  Qed.
  Lemma posted_height h t l p : In p (posted_by h t l) -> p_height p = h /\ t <= p_ticket p < t + N.of_nat (List.length l).
  Proof.
    revert t. induction l as [|i l IH]; intros t; cbn [posted_by]; [intros []|]. rewrite in_app_iff. intros [X|X].
    - destruct i; try destruct X as [<-|[]]; try destruct X. cbn. split; auto. lia.
    - apply IH in X as (X1 & X2). split; auto. unfold next in X2. destruct (takes_number i); cbn [List.length]; lia.
  Qed.
  Lemma facts_height base h l : forall t s g, In g (facts_items H binary base h t s l) -> g_height g = h /\ t <= g_ticket g < t + N.of_nat (List.length l).
  Proof.
    induction l as [|i l IH]; intros t s g; cbn [facts_items]; [intros []|]. destruct (step H binary base h t s i) as [(s', t')|] eqn:E; [|intros []]. rewrite in_app_iff. intros [X|X].
    - assert (Q : forall d c, In g (fact_of d h t c s s') -> g_height g = h /\ g_ticket g = t).
      { intros d c. unfold fact_of. destruct (s_world s (o_offer c)); [|intros []]. destruct (s_world s' (o_offer c)); [|intros []]. destruct (o_deposit c) as [(?, ?)|]; [|intros []].
        destruct (o_method c); intros [<-|[]] || intros []; auto. }
      destruct i; try destruct X; apply Q in X as (X1 & X2); cbn [List.length]; split; auto; lia.
    - apply IH in X as (X1 & X2). split; auto. assert (t <= t' <= t + 1).
      { destruct i; cbn [step] in E; repeat match type of E with match ?x with _ => _ end = _ => destruct x; try discriminate end; injection E as _ <-; lia. }
      cbn [List.length]. lia.
  Qed.
End INV.

Section WHOLE.
  Variables (H : bytes -> addr) (binary : addr) (chain : list block) (s : state).
  Hypothesis FM : formed chain.
  Hypothesis RUN : run H binary genesis chain = Some s.

  Lemma whole_inv : exists base h t, inv H binary base (posted_in chain) (facts H binary genesis chain) h t s.
  Proof.
    destruct FM as [SO _ _ _]. revert RUN SO. destruct chain as [|b l]; cbn [run facts]; intros R SO.
    - injection R as <-. exists (fun _ => None), 0, 0. apply inv_genesis.
    - destruct (steps H binary (s_world genesis) (b_height b) (b_start b) genesis (b_items b)) as [s1|] eqn:X; [|discriminate].
      destruct (steps_inv H binary _ _ _ _ _ _ _ _ (inv_genesis H binary (b_height b) (b_start b)) X) as (t' & _ & V2).
      inversion_clear SO as [|? ? S' FA]. rewrite Forall_forall in FA. destruct (run_inv H binary _ _ _ _ _ _ _ _ V2 S' FA R) as (base' & h' & t'' & V3). exists base', h', t''.
      rewrite app_nil_l, app_nil_l in V3. exact V3.
  Qed.
  Lemma posted_top p : In p (posted_in chain) -> p_height p < 2 ^ 32 - 1 /\ p_ticket p < 2 ^ 32 - 1.
  Proof.
    unfold posted_in. rewrite in_flat_map. intros (b & B & P). apply posted_height in P as (-> & P). destruct (fm_top _ FM _ B). lia.
  Qed.
  Lemma posted_len : N.of_nat (List.length (posted_in chain)) < 2 ^ 63.
  Proof.
    pose proof (fm_number _ FM) as L. eapply N.le_lt_trans; [|exact L]. clear. unfold posted_in.
    assert (Q : forall h t l, (List.length (posted_by h t l) <= List.length l)%nat).
    { intros h t l. revert t. induction l as [|i l IH]; intros t; cbn [posted_by List.length]; auto. rewrite app_length. specialize (IH (next t i)). destruct i; cbn [List.length]; lia. }
    induction chain as [|b l IH]; cbn [flat_map fold_right List.length]; [lia|]. rewrite app_length. specialize (Q (b_height b) (b_start b) (b_items b)). lia.
  Qed.
  Lemma facts_top_aux l : forall s0 g, In g (facts H binary s0 l) -> exists b, In b l /\ g_height g = b_height b /\ g_ticket g < b_start b + N.of_nat (List.length (b_items b)).
  Proof.
    induction l as [|b l IH]; intros s0 g; cbn [facts]; [intros []|]. rewrite in_app_iff. intros [X|X].
    - apply facts_height in X as (X1 & X2). exists b. split; [now left|]. split; auto. lia.
    - destruct (steps _ _ _ _ _ _ _) as [s1|]; [|destruct X]. apply IH in X as (b' & X1 & X2). exists b'. split; [now right|auto].
  Qed.
  Lemma facts_top g : In g (facts H binary genesis chain) -> g_height g < 2 ^ 32 - 1 /\ g_ticket g < 2 ^ 32 - 1.
  Proof. intros X. apply facts_top_aux in X as (b & B & -> & L). destruct (fm_top _ FM _ B). lia. Qed.
  Lemma posted_currency p : In p (posted_in chain) -> List.length (p_bid p) = 32%nat /\ List.length (p_ask p) = 32%nat.
  Proof.
    unfold posted_in. rewrite in_flat_map. intros (b & B & P). assert (Q : exists id owner price partner, In (Deploy id owner (p_bid p) (p_ask p) price partner) (b_items b)).
    { revert P. generalize (b_start b). generalize (b_height b). induction (b_items b) as [|i l IH]; intros h t; cbn [posted_by]; [intros []|]. rewrite in_app_iff. intros [X|X].
      - destruct i; try destruct X as [<-|[]]; try destruct X. cbn. eauto 10.
      - destruct (IH _ _ X) as (x1 & x2 & x3 & x4 & Y). exists x1, x2, x3, x4. now right. }
    destruct Q as (x1 & x2 & x3 & x4 & Y). eapply (fm_currency _ FM); eauto.
  Qed.
End WHOLE.

(** ** Fetching *)
Section FETCH.
  Variable s : state.
  Hypothesis PR : presentable s.
  Hypothesis POS : forall a f, s_world s a = Some f -> 0 < Offer.inv_price (f_vars f) /\ Offer.bid_currency (f_vars f) <> Offer.ask_currency (f_vars f).
  Lemma ask_amount bid price : 0 < price -> bid * 2 ^ 64 <= (2 ^ 128 - 1) * price -> exists x, get_ask_amount bid price = Some x /\
    bid <= x * price / 2 ^ 64 /\ forall y, bid <= y * price / 2 ^ 64 -> x <= y.
  Proof.
    intros P L. unfold get_ask_amount. destruct (N.eqb_spec price 0); [lia|]. set (z := bid * 2 ^ 64) in *. set (x := (z + price - 1) / price).
    assert (Q1 : z <= x * price). { unfold x. pose proof (N.mul_succ_div_gt (z + price - 1) price n) as G. rewrite N.mul_succ_r in G. clearbody z. revert G. generalize ((z + price - 1) / price). intros d G. lia. }
    assert (Q2 : forall y, z <= y * price -> x <= y).
    { intros y Y. unfold x. assert (G : (z + price - 1) / price < y + 1); [|lia]. apply N.div_lt_upper_bound; auto. rewrite N.mul_add_distr_l, N.mul_1_r, (N.mul_comm price y). lia. }
    specialize (Q2 _ L) as Q3. destruct (N.leb_spec (2 ^ 128) x) as [G|_].
    { exfalso. revert G Q3. generalize x. clear. intros x G Q. change (2 ^ 128) with 340282366920938463463374607431768211456 in *. lia. }
    exists x. split; auto. split.
    - apply N.div_le_lower_bound; [discriminate|]. rewrite N.mul_comm. exact Q1.
    - intros y Y. apply Q2. unfold z. pose proof (N.mul_div_le (y * price) (2 ^ 64) ltac:(discriminate)) as G. etransitivity; [|exact G]. rewrite N.mul_comm. apply N.mul_le_mono_l. exact Y.
  Qed.
  Lemma get_offer_ok a f : s_world s a = Some f -> exists d, get_offer s a = Some d /\ describes s d /\ d_address d = a /\ is_scam d = false.
  Proof.
    intros W. unfold get_offer. rewrite W. destruct (PR _ _ W) as (P1 & P2). destruct (POS _ _ W) as (P3 & NE). destruct (N.leb_spec (2 ^ 128) (Offer.inv_price (f_vars f))) as [G|_]; [exfalso; revert G P1; generalize (2 ^ 128); intros; lia|].
    destruct (ask_amount _ _ P3 P2) as (x & -> & Q1 & Q2). eexists. split; [reflexivity|]. split; [|split; [reflexivity|]].
    - constructor; cbn [d_address d_height d_owner d_partner d_bid d_ask d_bid_balance d_ask_balance d_price d_last_update d_ask_amount]; auto. exists f. auto 15.
    - unfold is_scam. cbn. destruct (addr_eqb_spec (Offer.bid_currency (f_vars f)) (Offer.ask_currency (f_vars f))); [congruence|reflexivity].
  Qed.
  Definition open_to (open closed : bool) (d : data) : bool :=
    (negb open || (0 <? d_bid_balance d) || (closed && (0 <? d_ask_balance d))) && match d_partner d with None => true | Some _ => false end.
  Definition look (open closed : bool) (a : addr) : list data := match get_offer s a with Some d => if open_to open closed d then [d] else [] | None => [] end.
  Lemma fetch_ok open closed l : (forall a, In a l -> exists f, s_world s a = Some f) -> fetch_offers s open closed l = Some (flat_map (look open closed) l).
  Proof.
    induction l as [|a l IH]; intros W; [reflexivity|]. cbn [fetch_offers flat_map]. destruct (W a (or_introl eq_refl)) as (f & F). rewrite IH by (intros; apply W; now right).
    destruct (get_offer_ok _ _ F) as (d & G & [(f' & D1 & D2 & D3 & D4 & D5 & D6 & D7 & D8 & D9 & D10) _] & D & SC). unfold look. rewrite G. rewrite D in D1. rewrite F in D1. injection D1 as <-.
    unfold get_offer_state, open_to. rewrite F, <- D9, <- D10, SC. cbn [negb]. rewrite andb_true_r.
    destruct open; cbn [negb orb andb].
    - destruct (0 <? d_bid_balance d); cbn [N.eqb orb andb app].
      + cbn [Pos.eqb]. destruct (d_partner d); reflexivity.
      + destruct (0 <? d_ask_balance d); cbn [N.eqb Pos.eqb andb orb].
        * destruct closed; cbn [andb app]; [destruct (d_partner d); reflexivity|reflexivity].
        * rewrite andb_false_r. reflexivity.
    - destruct (d_partner d); reflexivity.
  Qed.
End FETCH.

(** ** The loop *)
Lemma take_split {A} n (l : list A) : exists r, l = take n l ++ r /\ (N.of_nat (List.length (take n l)) <= n) /\ (r = [] \/ N.of_nat (List.length (take n l)) = n).
Proof.
  unfold take. set (m := N.to_nat (N.min n (N.of_nat (List.length l)))). exists (skipn m l). rewrite firstn_skipn. split; auto. rewrite firstn_length.
  assert (m <= List.length l)%nat by (unfold m; lia). rewrite Nat.min_l by auto. split; [unfold m; lia|]. destruct (N.le_gt_cases (N.of_nat (List.length l)) n) as [L|L].
  - left. apply skipn_all2. unfold m. lia.
  - right. unfold m. lia.
Qed.
Section LOOP.
  Variable s : state.
  Hypothesis PR : presentable s.
  Hypothesis POS : forall a f, s_world s a = Some f -> 0 < Offer.inv_price (f_vars f) /\ Offer.bid_currency (f_vars f) <> Offer.ask_currency (f_vars f).
  Variables (tb : list (key * addr)) (open : bool) (keep : data -> bool) (limit chunk : N) (lo : key).
  Hypothesis SO : asorted key_cmp tb.
  Hypothesis TH : forall k a, In (k, a) tb -> exists f, s_world s a = Some f.
  Hypothesis CH : limit <= chunk.
  Definition found (rows : list (key * addr)) : list data := filter keep (flat_map (look s open false) (map snd rows)).
  Lemma found_app l l' : found (l ++ l') = found l ++ found l'.
  Proof. unfold found. now rewrite map_app, flat_map_app, filter_app. Qed.
  Lemma collect_ok fuel : forall at_ res, (List.length (last_range lo at_ tb) < fuel)%nat ->
    exists l r, collect fuel s tb open keep limit chunk lo at_ res = Done (res ++ found l) /\ last_range lo at_ tb = l ++ r /\ (r = [] \/ limit <= N.of_nat (List.length (res ++ found l))).
  Proof.
    induction fuel as [|fuel IH]; intros at_ res FU; [lia|]. cbn [collect]. destruct (N.leb_spec limit (N.of_nat (List.length res))) as [L|L].
    - exists [], (last_range lo at_ tb). unfold found. cbn. rewrite app_nil_r. auto.
    - destruct (take_split chunk (last_range lo at_ tb)) as (r & E & T1 & T2). destruct (take chunk (last_range lo at_ tb)) as [|x l] eqn:TK.
      + exists [], r. unfold found. cbn. rewrite app_nil_r. split; auto. split; auto. destruct T2 as [->|T2]; auto. cbn in T2. lia.
      + assert (IN : forall a, In a (map snd (x :: l)) -> exists f, s_world s a = Some f).
        { intros a X. apply in_map_iff in X as ((k & b) & <- & X). apply (TH k). assert (Y : In (k, b) (last_range lo at_ tb)) by (rewrite E; apply in_app_iff; auto). now apply (last_range_in _ _ _ _ SO) in Y. }
        rewrite (fetch_ok s PR POS _ _ _ IN). set (at' := last (map fst (x :: l)) at_).
        assert (BE : last_range lo at' tb = r).
        { assert (Q : exists l0 y, x :: l = l0 ++ [y]) by (destruct (@exists_last _ (x :: l)) as (l0 & y & Q); [discriminate|eauto]). destruct Q as (l0 & y & Q).
          unfold at'. rewrite Q, map_app. cbn [map]. rewrite last_last. apply (last_range_below tb lo at_ l0 y r SO). rewrite E, Q, <- app_assoc. reflexivity. }
        destruct (IH at' (res ++ filter keep (flat_map (look s open false) (map snd (x :: l))))) as (l2 & r2 & E1 & E2 & E3).
        { rewrite BE. rewrite E, app_length in FU. cbn in FU. lia. }
        rewrite E1. exists ((x :: l) ++ l2), r2. rewrite found_app, app_assoc. split; auto. split; auto. rewrite <- app_assoc, <- E2, BE. exact E.
  Qed.
End LOOP.

(** ** Order *)
Definition high (x y : data) : Prop := d_height y <= d_height x.
Lemma newer_height x y : newer x y = true -> d_height y <= d_height x.
Proof. unfold newer. rewrite orb_true_iff, andb_true_iff. intros [E|(E & _)]; [apply N.ltb_lt in E; lia|apply N.eqb_eq in E; lia]. Qed.
Lemma not_newer_height x y : newer x y = false -> d_height x <= d_height y.
Proof. unfold newer. rewrite orb_false_iff. intros (E & _). apply N.ltb_ge in E. exact E. Qed.
Lemma oput_perm x l : Permutation (OfqModel.put x l) (x :: l).
Proof. induction l as [|y l IH]; cbn [OfqModel.put]; auto. destruct (newer x y); auto. rewrite IH. apply perm_swap. Qed.
Lemma osort_perm l : Permutation (OfqModel.sort l) l.
Proof. induction l as [|x l IH]; cbn [OfqModel.sort fold_right]; auto. rewrite oput_perm. now constructor. Qed.
Lemma oput_sorted x l : StronglySorted high l -> StronglySorted high (OfqModel.put x l).
Proof.
  induction 1 as [|y l S1 IH F]; cbn [OfqModel.put]; [repeat constructor|]. destruct (newer x y) eqn:E.
  - apply newer_height in E. constructor; [constructor; auto|]. constructor; auto. eapply Forall_impl; [|exact F]. unfold high. intros; lia.
  - apply not_newer_height in E. constructor; auto. apply Forall_forall. intros z Z. apply (Permutation_in _ (oput_perm x l)) in Z as [<-|Z]; auto. rewrite Forall_forall in F. auto.
Qed.
Lemma osort_sorted l : StronglySorted high (OfqModel.sort l).
Proof. induction l as [|x l IH]; cbn [OfqModel.sort fold_right]; [constructor|]. now apply oput_sorted. Qed.
Lemma high_app l1 l2 : StronglySorted high (l1 ++ l2) -> StronglySorted high l1 /\ forall x y, In x l1 -> In y l2 -> high x y.
Proof.
  induction l1 as [|a l1 IH]; cbn [app]; intros S; [split; [constructor|intros ? ? []]|]. inversion_clear S as [|? ? S' F]. destruct (IH S') as (A & B). rewrite Forall_forall in F. split.
  - constructor; auto. apply Forall_forall. intros y Y. apply F, in_app_iff; auto.
  - intros x y [<-|X] Y; auto. apply F, in_app_iff; auto.
Qed.

Lemma size_pos z : OfqSpec.limit_ok z -> (0 <= z)%Z -> size z = Z.to_N z.
Proof. intros L P. unfold size, OfqSpec.limit_ok in *. rewrite Z.mod_small; auto. split; auto. eapply Z.lt_trans; [apply L|reflexivity]. Qed.
Lemma size_neg z : OfqSpec.limit_ok z -> (z < 0)%Z -> 2 ^ 63 <= size z.
Proof.
  intros L P. unfold size, OfqSpec.limit_ok in *. rewrite <- (Z.mod_add z 1) by discriminate. rewrite Z.mod_small.
  - change (2 ^ 63) with (Z.to_N (2 ^ 63)). apply Z2N.inj_le; [discriminate| |]; change (2 ^ 31)%Z with 2147483648%Z in *; change (2 ^ 64)%Z with 18446744073709551616%Z; change (2 ^ 63)%Z with 9223372036854775808%Z; lia.
  - change (2 ^ 31)%Z with 2147483648%Z in *; change (2 ^ 64)%Z with 18446744073709551616%Z. lia.
Qed.
Lemma nodup_app_l {A} (l1 l2 : list A) : NoDup (l1 ++ l2) -> NoDup l1.
Proof. induction l1 as [|x l IH]; cbn [app]; intros D; [constructor|]. inversion_clear D as [|? ? I D']. constructor; auto. intros X. apply I, in_app_iff; auto. Qed.
Lemma newest_of limit (all : data -> Prop) A B out : OfqSpec.limit_ok limit -> (forall d, all d <-> In d (A ++ B)) -> StronglySorted high (A ++ B) -> NoDup (map d_address (A ++ B)) ->
  (B = [] \/ size limit <= N.of_nat (List.length A)) -> N.of_nat (List.length (A ++ B)) < 2 ^ 63 -> Permutation out A -> StronglySorted high out -> newest limit all (take (size limit) out).
Proof.
  intros LO AL SO ND ST LN PE SOUT. destruct (take_split (size limit) out) as (r & E & T1 & T2). set (tk := take (size limit) out) in *.
  assert (LA : List.length out = List.length A) by now apply Permutation_length. assert (LE : (List.length out = List.length tk + List.length r)%nat) by (rewrite E at 1; apply app_length).
  rewrite app_length in LN. destruct (high_app A B SO) as (_ & HAB). assert (SOUT' := SOUT). rewrite E in SOUT'. destruct (high_app tk r SOUT') as (STK & HR).
  assert (INA : forall x, In x tk -> In x A) by (intros x X; apply (Permutation_in _ PE); rewrite E; apply in_app_iff; auto).
  constructor.
  - exact STK.
  - rewrite map_app in ND. apply nodup_app_l in ND. apply (nodup_app_l _ (map d_address r)). rewrite <- map_app, <- E. eapply Permutation_NoDup; [apply Permutation_map; symmetry; exact PE|exact ND].
  - intros d D. apply AL, in_app_iff; auto.
  - intros L. rewrite size_pos in T1 by auto. lia.
  - intros d D. apply AL, in_app_iff in D. destruct (Z.ltb_spec limit 0) as [NEG|POS].
    + pose proof (size_neg _ LO NEG) as SZ. left. destruct ST as [->|ST]; [|lia]. destruct D as [D|[]]. destruct T2 as [->|T2]; [|lia].
      rewrite app_nil_r in E. rewrite <- E. apply (Permutation_in _ (Permutation_sym PE)). exact D.
    + assert (FULL : (r <> [] \/ B <> []) -> Z.of_nat (List.length tk) = limit).
      { intros Q. rewrite size_pos in T1, T2, ST by auto. destruct T2 as [->|T2]; [|lia]. destruct Q as [Q|Q]; [congruence|]. destruct ST as [|ST]; [congruence|]. cbn in LE. lia. }
      destruct D as [D|D].
      * apply (Permutation_in _ (Permutation_sym PE)) in D. rewrite E in D. apply in_app_iff in D as [D|D]; auto. right. split; auto. split; [apply FULL; left; now intros ->|]. intros x X. now apply HR.
      * right. split; auto. split; [apply FULL; right; now intros ->|]. intros x X. apply HAB; auto.
Qed.

(** ** Queries *)
Section QUERIES.
  Variables (H : bytes -> addr) (binary : addr) (chain : list block) (s : state).
  Hypothesis FM : formed chain.
  Hypothesis RUN : run H binary genesis chain = Some s.
  Hypothesis PR : presentable s.
  Lemma the_pos : forall a f, s_world s a = Some f -> 0 < Offer.inv_price (f_vars f) /\ Offer.bid_currency (f_vars f) <> Offer.ask_currency (f_vars f).
  Proof. destruct (whole_inv H binary chain s FM RUN) as (base & h & t & V). intros a f W. destruct (i_world _ _ _ _ _ _ _ _ V _ _ W) as (_ & A & B). auto. Qed.

  Variables (tb : list (key * addr)) (names : posted -> list addr) (k : addr).
  Hypothesis TB : tbl tb (post_rows names (posted_in chain)).
  Lemma tb_there : forall x a, In (x, a) tb -> exists f, s_world s a = Some f.
  Proof.
    destruct (whole_inv H binary chain s FM RUN) as (base & h & t & V). intros x a X. apply TB in X as (p & y & X1 & _ & _ & ->). now apply (i_there _ _ _ _ _ _ _ _ V).
  Qed.
  Lemma post_unique p q : In p (posted_in chain) -> In q (posted_in chain) -> p_id p = p_id q -> p = q.
  Proof.
    destruct (whole_inv H binary chain s FM RUN) as (base & h & t & V). pose proof (i_once _ _ _ _ _ _ _ _ V) as ND. revert ND. generalize (posted_in chain). clear. induction l as [|x l IH]; intros ND P Q E; [destruct P|].
    cbn [map] in ND. inversion_clear ND as [|? ? NI ND']. destruct P as [<-|P], Q as [<-|Q]; auto; exfalso; apply NI; [rewrite E|rewrite <- E]; now apply in_map.
  Qed.
  Lemma post_data p : In p (posted_in chain) -> exists d f, get_offer s (p_id p) = Some d /\ describes s d /\ d_address d = p_id p /\ s_world s (p_id p) = Some f /\ d_height d = p_height p /\ d_bid d = p_bid p /\ d_ask d = p_ask p /\ d_owner d = p_owner p.
  Proof.
    destruct (whole_inv H binary chain s FM RUN) as (base & h & t & V). intros P. destruct (i_there _ _ _ _ _ _ _ _ V _ P) as (f & F).
    destruct (get_offer_ok s PR the_pos _ _ F) as (d & G & DS & DA & _). exists d, f. split; auto. split; auto. split; auto. split; auto.
    destruct DS as [(f' & D1 & D2 & D3 & D4 & D5 & D6 & _) _]. rewrite DA, F in D1. injection D1 as <-. destruct (i_world _ _ _ _ _ _ _ _ V _ _ F) as ((q & Q1 & Q2 & Q3 & Q4 & Q5 & Q6) & _).
    assert (q = p) by (apply post_unique; auto). subst q. rewrite D2, D5, D6, D3. auto.
  Qed.
  Definition rows := last_range ((k, 0), 0) ((k, top), top) tb.
  Lemma rows_are r : In r rows <-> exists p, In p (posted_in chain) /\ In k (names p) /\ r = (row k (p_height p) (p_ticket p), p_id p).
  Proof.
    unfold rows. rewrite (last_range_in _ _ _ _ (proj1 TB)). destruct r as (x, a). rewrite (proj2 TB). cbn [fst]. split.
    - intros ((p & y & P1 & P2 & -> & ->) & L1 & L2). exists p. assert (y = k); [|subst y; auto]. unfold row in L1, L2. rewrite klt_spec in L1.
      destruct L2 as [L2|L2]; [now injection L2|]. rewrite klt_spec in L2. destruct L1 as [L1|(-> & _)]; auto. destruct L2 as [L2|(-> & _)]; auto.
      exfalso. apply (klt_asym bytescmp_total L1 L2).
    - intros (p & P1 & P2 & [= -> ->]). destruct (posted_top chain FM _ P1) as (T1 & T2). split; [exists p, k; auto|]. unfold row. rewrite !klt_spec. unfold top. split; [right; auto|].
      destruct (N.eq_dec (p_height p) 0) as [->|]; [destruct (N.eq_dec (p_ticket p) 0) as [->|]|]; auto; right; right; split; auto; [right; split; auto; lia|left; lia].
  Qed.
  Lemma rows_desc : desc rows. Proof. apply last_range_desc. apply TB. Qed.
  Variables (open : bool) (keep : data -> bool).
  Definition fits (d : data) : Prop := exists p, In p (posted_in chain) /\ In k (names p) /\ get_offer s (p_id p) = Some d /\ open_to open false d = true /\ keep d = true.
  Lemma found_are d : In d (found s open keep rows) <-> fits d.
  Proof.
    unfold found, fits. rewrite filter_In, in_flat_map. split.
    - intros ((a & A & D) & K). apply in_map_iff in A as (r & <- & R). apply rows_are in R as (p & P1 & P2 & ->). cbn [snd] in D. exists p. unfold look in D. destruct (get_offer s (p_id p)) as [e|]; [|destruct D].
      destruct (open_to open false e) eqn:O; [|destruct D]. destruct D as [<-|[]]. auto.
    - intros (p & P1 & P2 & G & O & K). split; auto. exists (p_id p). split.
      + apply in_map_iff. exists (row k (p_height p) (p_ticket p), p_id p). split; auto. apply rows_are. exists p. auto.
      + unfold look. rewrite G, O. now left.
  Qed.
  Lemma look_height p d : In p (posted_in chain) -> In d (look s open false (p_id p)) -> d_height d = p_height p /\ d_address d = p_id p.
  Proof.
    intros P D. unfold look in D. destruct (post_data _ P) as (e & f & G & _ & A & _ & HE & _). rewrite G in D. destruct (open_to open false e); [|destruct D]. destruct D as [<-|[]]. auto.
  Qed.
  Lemma found_sorted : StronglySorted high (found s open keep rows) /\ NoDup (map d_address (found s open keep rows)).
  Proof.
    assert (Q : forall l, desc l -> (forall r, In r l -> In r rows) -> StronglySorted high (found s open keep l) /\ NoDup (map d_address (found s open keep l)) /\
      (forall d, In d (found s open keep l) -> exists r, In r l /\ d_address d = snd r /\ d_height d = k_height (fst r))).
    { induction 1 as [|x l S1 IH F]; intros IN; [unfold found; cbn; split; [constructor|split; [constructor|intros d []]]|].
      destruct IH as (I1 & I2 & I3); [intros; apply IN; now right|]. change (x :: l) with ([x] ++ l). rewrite found_app.
      destruct (proj1 (rows_are x) (IN x (or_introl eq_refl))) as (p & P1 & P2 & ->).
      assert (ONE : forall d, In d (found s open keep [(row k (p_height p) (p_ticket p), p_id p)]) -> d_height d = p_height p /\ d_address d = p_id p).
      { intros d D. unfold found in D. cbn [map flat_map snd] in D. rewrite app_nil_r in D. apply filter_In in D as (D & _). now apply look_height. }
      assert (LEN : found s open keep [(row k (p_height p) (p_ticket p), p_id p)] = [] \/ exists d, found s open keep [(row k (p_height p) (p_ticket p), p_id p)] = [d]).
      { unfold found, look. cbn [map flat_map snd]. destruct (get_offer s (p_id p)) as [e|]; auto. destruct (open_to open false e); auto. cbn [app filter]. destruct (keep e); eauto. }
      destruct LEN as [E|(d & E)]; rewrite E in ONE |- *; cbn [app map].
      - split; auto. split; auto. intros d D. destruct (I3 _ D) as (r & R1 & R2). exists r. split; auto. now right.
      - destruct (ONE d (or_introl eq_refl)) as (D1 & D2). rewrite Forall_forall in F. split; [|split].
        + constructor; auto. apply Forall_forall. intros e EI. destruct (I3 _ EI) as (r & R1 & R2 & R3). unfold high. rewrite D1, R3. specialize (F _ R1). destruct r as (((kk, hh), tt), a). cbn [fst] in F. unfold row in F. rewrite klt_spec in F.
          unfold k_height. cbn [fst snd]. destruct (proj1 (rows_are _) (IN _ (or_intror R1))) as (q & _ & _ & Q). injection Q as -> -> -> ->. destruct F as [F|(_ & F)]; [rewrite (cmp_refl bytescmp_total) in F; discriminate|lia].
        + constructor; auto. intros X. apply in_map_iff in X as (e & X1 & X2). destruct (I3 _ X2) as (r & R1 & R2 & _). destruct (proj1 (rows_are _) (IN _ (or_intror R1))) as (q & Q1 & _ & ->). cbn [snd] in R2.
          assert (q = p) by (apply post_unique; auto; congruence). subst q. specialize (F _ R1). cbn [fst] in F. now apply (klt_irrefl KT) in F.
        + intros e [<-|EI]; [eexists; split; [now left|cbn; auto]|]. destruct (I3 _ EI) as (r & R1 & R2). exists r. split; auto. now right. }
    destruct (Q rows rows_desc (fun r X => X)) as (A & B & _). auto.
  Qed.
  Lemma found_len : N.of_nat (List.length (found s open keep rows)) < 2 ^ 63.
  Proof.
    eapply N.le_lt_trans; [|apply (posted_len chain FM)]. rewrite <- (map_length d_address), <- (map_length p_id (posted_in chain)).
    assert (L : (List.length (map d_address (found s open keep rows)) <= List.length (map p_id (posted_in chain)))%nat); [|lia].
    apply NoDup_incl_length; [apply found_sorted|]. intros a A. apply in_map_iff in A as (d & <- & D). apply found_are in D as (p & P1 & _ & G & _). destruct (post_data _ P1) as (e & f & G' & _ & DA & _). rewrite G in G'. injection G' as <-. rewrite DA. now apply in_map.
  Qed.
  (** the loop and what follows, with and without sorting *)
  Lemma loop_ok limit chunk : OfqSpec.limit_ok limit -> size limit <= chunk ->
    exists l, collect (S (List.length tb)) s tb open keep (size limit) chunk ((k, 0), 0) ((k, top), top) [] = Done l /\
      forall out, (out = l \/ out = OfqModel.sort l \/ out = OfqModel.sort (take (size limit) l)) -> newest limit fits (take (size limit) out).
  Proof.
    intros LO CH. destruct (collect_ok s PR the_pos tb open keep (size limit) chunk ((k, 0), 0) (proj1 TB) tb_there CH (S (List.length tb)) ((k, top), top) []) as (l & r & E & SP & ST).
    { fold rows. apply le_n_S. apply NoDup_incl_length; [apply desc_nodup, rows_desc|]. intros x X. unfold rows in X. now apply (last_range_in _ _ _ _ (proj1 TB)) in X. }
    cbn [app] in E, ST. exists (found s open keep l). split; auto. fold rows in SP. destruct found_sorted as (FS & FN). pose proof found_len as FL. rewrite SP, found_app in FS, FN, FL.
    assert (AL : forall d, fits d <-> In d (found s open keep l ++ found s open keep r)) by (intros d; rewrite <- found_app, <- SP, found_are; tauto).
    assert (STOP : found s open keep r = [] \/ size limit <= N.of_nat (List.length (found s open keep l))) by (destruct ST as [->|ST]; auto).
    intros out [->|[->| ->]].
    - eapply newest_of; eauto. now apply high_app in FS.
    - eapply newest_of; eauto; [apply osort_perm|apply osort_sorted].
    - destruct (take_split (size limit) (found s open keep l)) as (r' & E' & T1 & T2). set (tk := take (size limit) (found s open keep l)) in *.
      rewrite E', <- app_assoc in FS, FN, FL. apply (newest_of limit fits tk (r' ++ found s open keep r)); auto.
      + intros d. rewrite app_assoc, <- E'. apply AL.
      + destruct T2 as [->|T2]; [|right; lia]. cbn [app]. destruct STOP as [->|STOP]; auto. right. rewrite E', app_nil_r in STOP. exact STOP.
      + apply osort_perm.
      + apply osort_sorted.
  Qed.
End QUERIES.
Lemma describes_unique s d e : describes s d -> describes s e -> d_address d = d_address e -> d = e.
Proof.
  intros [(f & D1 & D2 & D3 & D4 & D5 & D6 & D7 & D8 & D9 & D10) (DA & DB)] [(g & E1 & E2 & E3 & E4 & E5 & E6 & E7 & E8 & E9 & E10) (EA & EB)] A.
  rewrite A, E1 in D1. injection D1 as <-. assert (B : d_bid_balance d = d_bid_balance e) by congruence. assert (P : d_price d = d_price e) by congruence.
  rewrite B, P in DA, DB. pose proof (DB _ EA). pose proof (EB _ DA). assert (X : d_ask_amount d = d_ask_amount e) by lia. destruct d, e. cbn in *. congruence.
Qed.
Lemma app_split {A} (a b c d : list A) : List.length a = List.length c -> a ++ b = c ++ d -> a = c /\ b = d.
Proof. revert c. induction a as [|x a IH]; intros [|y c] L E; cbn in *; try discriminate; auto. injection E as -> E. injection L as L. destruct (IH _ L E) as (-> & ->). auto. Qed.
(** what is looked for is found under its own strings only *)
Lemma clear_ok H pairs bid ask a b : clear H pairs bid ask -> In (a, b) pairs -> List.length a = 32%nat -> List.length b = 32%nat -> (bid <> None \/ ask <> None) ->
  (In (H (string_of bid ask)) (map H (marks a b)) <-> is_some bid b /\ is_some ask a).
Proof.
  intros [CH CB CA] IN LA LB SO. assert (Q : In (H (string_of bid ask)) (map H (marks a b)) <-> In (string_of bid ask) (marks a b)).
  { split; [|apply in_map]. intros X. apply in_map_iff in X as (x & X1 & X2). now rewrite <- (CH _ _ _ IN X2 X1). }
  rewrite Q. unfold marks, string_of. cbn [In]. assert (LN : List.length ANY = 3%nat) by reflexivity. destruct bid as [b'|], ask as [a'|]; cbn [is_some].
  - destruct (CB _ eq_refl) as (LB' & _). destruct (CA _ eq_refl) as (LA' & _). split.
    + intros [E|[E|[E|[]]]].
      * apply app_split in E as (-> & ->); [auto|congruence].
      * apply (f_equal (@List.length N)) in E. rewrite !app_length in E. lia.
      * apply (f_equal (@List.length N)) in E. rewrite !app_length in E. lia.
    + intros (-> & ->). auto.
  - destruct (CB _ eq_refl) as (LB' & NB). split; [|intros (-> & _); auto]. intros [E|[E|[E|[]]]].
    + apply (f_equal (@List.length N)) in E. rewrite !app_length in E. lia.
    + apply app_inv_head in E. auto.
    + exfalso. destruct a as [|x [|y [|z a]]]; try discriminate LA. cbn [app] in E. injection E as _ _ _ E. apply (NB a). symmetry. exact E.
  - destruct (CA _ eq_refl) as (LA' & NA). split; [|intros (_ & ->); auto]. intros [E|[E|[E|[]]]].
    + apply (f_equal (@List.length N)) in E. rewrite !app_length in E. lia.
    + exfalso. destruct a' as [|x [|y [|z a']]]; try discriminate LA'. cbn [app] in E. injection E as <- <- <- E. now apply (NA a').
    + apply app_inv_tail in E. auto.
  - destruct SO; congruence.
Qed.
Lemma search_string H bid ask : search_key H bid ask = if match bid, ask with None, None => true | _, _ => false end then None else Some (H (string_of bid ask)).
Proof. destruct bid, ask; reflexivity. Qed.

Section ANSWERS.
  Variables (H : bytes -> addr) (binary : addr) (chain : list block) (s : state).
  Hypothesis FM : formed chain.
  Hypothesis RUN : run H binary genesis chain = Some s.
  Hypothesis PR : presentable s.
  Lemma newest_ext limit (A B : data -> Prop) l : (forall d, A d <-> B d) -> newest limit A l -> newest limit B l.
  Proof. intros E [N1 N2 N3 N4 N5]. constructor; auto; intros d D; [apply E|apply E in D]; auto. Qed.
  Lemma fits_asked names k open min_bid bid ask : (forall p, In p (posted_in chain) -> (In k (names p) <-> is_some bid (p_bid p) /\ is_some ask (p_ask p))) ->
    forall d, fits chain s names k open (fun d => min_bid <=? d_bid_balance d) d <-> asked_for chain s bid ask min_bid open d.
  Proof.
    intros NM d. unfold fits, open_to. split.
    - intros (p & P & K & G & O & M). apply N.leb_le in M. apply andb_true_iff in O as (O & PA). destruct (post_data H binary chain s FM RUN PR _ P) as (e & f & G' & DS & DA & W & DH & DB & DK & DO).
      rewrite G in G'. injection G' as <-. apply NM in K as (K1 & K2); auto. constructor; auto; [exists p; auto| | | |].
      + destruct (d_partner d); [discriminate|auto].
      + now rewrite DB.
      + now rewrite DK.
      + intros ->. cbn [negb orb andb] in O. rewrite orb_false_r in O. now apply N.ltb_lt.
    - intros [(p & P & PI & PH) DS PA BI AS MI OP]. exists p. split; auto. destruct (post_data H binary chain s FM RUN PR _ P) as (e & f & G & DS' & DA & W & DH & DB & DK & DO).
      assert (d = e) by (apply (describes_unique s); auto; congruence). subst e. rewrite DB in BI. rewrite DK in AS. split; [apply NM; auto|]. split; auto. split; [|now apply N.leb_le].
      rewrite PA, andb_true_r. destruct open; cbn [negb orb]; auto. specialize (OP eq_refl). apply N.ltb_lt in OP. now rewrite OP.
  Qed.
  Lemma fits_keep names k open keep keep' : (forall d, keep d = keep' d) -> forall d, fits chain s names k open keep d <-> fits chain s names k open keep' d.
  Proof. intros E d. unfold fits. split; intros (p & P); exists p; rewrite E in * || rewrite <- E in *; exact P. Qed.

  Lemma recent_ok limit open : OfqSpec.limit_ok limit -> exists l, get_recent_offers binary s limit open = Done l /\ newest limit (asked_for chain s None None 0 open) l /\
    newest limit (asked_for chain s None None 0 open) (take (size limit) (OfqModel.sort l)).
  Proof.
    intros LO. destruct (whole_inv H binary chain s FM RUN) as (base & h & t & V). pose proof (i_log _ _ _ _ _ _ _ _ V) as TB.
    destruct (loop_ok H binary chain s FM RUN PR _ _ binary TB open (fun _ => true) limit (N.max (size limit) 100) LO (N.le_max_l _ _)) as (l & E & NW). unfold get_recent_offers. rewrite E.
    assert (FI : forall d, fits chain s (fun _ => [binary]) binary open (fun _ => true) d <-> asked_for chain s None None 0 open d).
    { intros d. rewrite <- (fits_asked (fun _ => [binary]) binary); [apply fits_keep; intros x; symmetry; apply N.leb_le; lia|]. intros p P. cbn. tauto. }
    eexists. split; [reflexivity|]. split; (eapply newest_ext; [exact FI|]); apply NW; auto.
  Qed.
  Lemma recent_for_ok bid ask min_bid limit open : OfqSpec.limit_ok limit -> clear H (currencies chain) bid ask -> (bid <> None \/ ask <> None \/ min_bid = 0) ->
    exists l, get_recent_offers_for H binary s bid ask min_bid limit open = Done l /\ newest limit (asked_for chain s bid ask min_bid open) l.
  Proof.
    intros LO CL SO. unfold get_recent_offers_for. rewrite search_string. destruct (match bid, ask with None, None => true | _, _ => false end) eqn:NN.
    - destruct bid; [destruct ask; discriminate|]. destruct ask; [discriminate|]. destruct SO as [SO|[SO| ->]]; try congruence. destruct (recent_ok limit open LO) as (l & -> & _ & NW). eauto.
    - destruct (whole_inv H binary chain s FM RUN) as (base & h & t & V). pose proof (i_index _ _ _ _ _ _ _ _ V) as TB.
      destruct (loop_ok H binary chain s FM RUN PR _ _ (H (string_of bid ask)) TB open (fun d => min_bid <=? d_bid_balance d) limit (size limit) LO (N.le_refl _)) as (l & E & NW). rewrite E.
      eexists. split; [reflexivity|]. eapply newest_ext; [|apply NW; auto]. apply fits_asked. intros p P. unfold marked. destruct (posted_currency chain FM _ P) as (L1 & L2).
      apply (clear_ok H (currencies chain)); auto.
      + unfold currencies. apply in_map_iff. eauto.
      + destruct bid; [left; discriminate|]. destruct ask; [right|]; discriminate.
  Qed.

  (** *** from a height on, and by owner *)
  Lemma first_range_in (tb : list (key * addr)) lo hi r : asorted key_cmp tb -> In r (first_range lo hi tb) <-> In r tb /\ klt key_cmp (fst r) hi /\ (lo = fst r \/ klt key_cmp lo (fst r)).
  Proof.
    intros SO. unfold first_range. assert (Q : forall l : list (key * addr), asorted key_cmp l -> take_while (fun r => key_ltb (fst r) hi) l = filter (fun r => key_ltb (fst r) hi) l).
    { induction l as [|(x, v) l IH]; intros A; auto. cbn [take_while filter fst]. destruct (asorted_cons_inv A) as (A' & LT). destruct (key_ltb x hi) eqn:E; [now rewrite IH|].
      symmetry. apply filter_no. intros (y, w) Y. cbn [fst]. apply key_ltb_false. right. apply key_ltb_false in E. specialize (LT _ _ Y). destruct E as [->|E]; auto. eapply (klt_trans KT); eauto. }
    rewrite Q by now apply asorted_filter. rewrite !filter_In, negb_true_iff, key_ltb_iff, key_ltb_false. intuition auto.
  Qed.
  Lemma range_rows names (tb : list (key * addr)) k since r : tbl tb (post_rows names (posted_in chain)) -> 
    In r (first_range ((k, since), 0) ((k, top), top) tb) <-> exists p, In p (posted_in chain) /\ In k (names p) /\ since <= p_height p /\ r = (row k (p_height p) (p_ticket p), p_id p).
  Proof.
    intros (SO & TB). rewrite first_range_in by auto. destruct r as (x, a). rewrite TB. cbn [fst]. split.
    - intros ((p & y & P1 & P2 & -> & ->) & L1 & L2). exists p. assert (y = k /\ since <= p_height p) as (-> & LE); [|auto]. unfold row in L1, L2. rewrite klt_spec in L1.
      destruct L2 as [L2|L2]; [injection L2 as -> -> _; split; auto; lia|]. rewrite klt_spec in L2. destruct L1 as [L1|(-> & _)].
      + destruct L2 as [L2|(-> & L2)]; [exfalso; apply (klt_asym bytescmp_total L1 L2)|]. rewrite (cmp_refl bytescmp_total) in L1. discriminate.
      + split; auto. destruct L2 as [L2|(_ & L2)]; [rewrite (cmp_refl bytescmp_total) in L2; discriminate|lia].
    - intros (p & P1 & P2 & LE & [= -> ->]). destruct (posted_top chain FM _ P1) as (T1 & T2). split; [exists p, k; auto|]. unfold row. rewrite !klt_spec. unfold top. split; [right; auto|].
      destruct (N.eq_dec since (p_height p)) as [->|]; [destruct (N.eq_dec (p_ticket p) 0) as [->|]|]; auto; right; right; split; auto; [right; split; auto; lia|left; lia].
  Qed.
  Lemma range_there names (tb : list (key * addr)) k since a : tbl tb (post_rows names (posted_in chain)) -> In a (map snd (first_range ((k, since), 0) ((k, top), top) tb)) -> exists f, s_world s a = Some f.
  Proof.
    intros TB A. destruct (whole_inv H binary chain s FM RUN) as (base & h & t & V). apply in_map_iff in A as (r & <- & R). apply (range_rows names) in R as (p & P & _ & _ & ->); auto. now apply (i_there _ _ _ _ _ _ _ _ V).
  Qed.
  Lemma offers_ok since open : exists l, get_offers binary s since open = Some l /\ forall d, In d l <-> asked_for chain s None None 0 open d /\ since <= d_height d.
  Proof.
    destruct (whole_inv H binary chain s FM RUN) as (base & h & t & V). pose proof (i_log _ _ _ _ _ _ _ _ V) as TB. unfold get_offers.
    rewrite (fetch_ok s PR (the_pos H binary chain s FM RUN)) by (intros a; apply (range_there _ _ _ _ _ TB)). eexists. split; [reflexivity|]. intros d.
    assert (FI : forall d, fits chain s (fun _ => [binary]) binary open (fun d => 0 <=? d_bid_balance d) d <-> asked_for chain s None None 0 open d) by (intros e; apply fits_asked; intros p P; cbn; tauto).
    rewrite <- FI, in_flat_map. unfold fits. split.
    - intros (a & A & D). apply in_map_iff in A as (r & <- & R). apply (range_rows _ _ _ _ _ TB) in R as (p & P1 & P2 & LE & ->). cbn [snd] in D.
      destruct (post_data H binary chain s FM RUN PR _ P1) as (e & f & G & DS & DA & W & DH & _). unfold look in D. rewrite G in D. destruct (open_to open false e) eqn:O; [|destruct D]. destruct D as [<-|[]].
      split; [|now rewrite DH]. exists p. split; auto. split; auto. split; auto. split; auto. apply N.leb_le. lia.
    - intros ((p & P1 & P2 & G & O & _) & LE). exists (p_id p). split.
      + apply in_map_iff. exists (row binary (p_height p) (p_ticket p), p_id p). split; auto. apply (range_rows _ _ _ _ _ TB). exists p. split; auto. split; auto. split; auto.
        destruct (post_data H binary chain s FM RUN PR _ P1) as (e & f & G' & DS & DA & W & DH & _). rewrite G in G'. injection G' as <-. now rewrite <- DH.
      + unfold look. rewrite G, O. now left.
  Qed.
  Lemma offers_by_ok owners open : exists l, get_offers_by s owners open = Some l /\
    forall d, In d l <-> (exists p, In p (posted_in chain) /\ p_id p = d_address d) /\ describes s d /\ d_partner d = None /\ In (d_owner d) owners /\ (open = true -> 0 < d_bid_balance d \/ 0 < d_ask_balance d).
  Proof.
    destruct (whole_inv H binary chain s FM RUN) as (base & h & t & V). pose proof (i_owned _ _ _ _ _ _ _ _ V) as TB. unfold get_offers_by.
    rewrite (fetch_ok s PR (the_pos H binary chain s FM RUN)) by (intros a A; apply in_flat_map in A as (o & _ & A); apply (range_there _ _ _ _ _ TB A)). eexists. split; [reflexivity|]. intros d.
    rewrite in_flat_map. split.
    - intros (a & A & D). apply in_flat_map in A as (o & O1 & A). apply in_map_iff in A as (r & <- & R). apply (range_rows _ _ _ _ _ TB) in R as (p & P1 & [<-|[]] & LE & ->). cbn [snd] in D.
      destruct (post_data H binary chain s FM RUN PR _ P1) as (e & f & G & DS & DA & W & DH & _ & _ & DO). unfold look in D. rewrite G in D. destruct (open_to open true e) eqn:O; [|destruct D]. destruct D as [<-|[]].
      split; [eauto|]. split; auto. unfold open_to in O. apply andb_true_iff in O as (O & PA). split; [destruct (d_partner e); [discriminate|auto]|]. split; [now rewrite DO|]. intros ->. cbn [negb orb andb] in O.
      apply orb_true_iff in O as [O|O]; apply N.ltb_lt in O; auto.
    - intros ((p & P1 & PI) & DS & PA & OW & OP). destruct (post_data H binary chain s FM RUN PR _ P1) as (e & f & G & DS' & DA & W & DH & _ & _ & DO).
      assert (d = e) by (apply (describes_unique s); auto; congruence). subst e. exists (p_id p). split.
      + apply in_flat_map. exists (p_owner p). split; [now rewrite <- DO|]. apply in_map_iff. exists (row (p_owner p) (p_height p) (p_ticket p), p_id p). split; auto.
        apply (range_rows _ _ _ _ _ TB). exists p. split; auto. split; [now left|]. split; auto. lia.
      + unfold look. rewrite G. replace (open_to open true d) with true; [now left|]. symmetry. unfold open_to. rewrite PA, andb_true_r. destruct open; cbn [negb orb andb]; auto.
        apply orb_true_iff. destruct (OP eq_refl) as [Q|Q]; [left|right]; now apply N.ltb_lt.
  Qed.
End ANSWERS.

(** ** Trades *)
Lemma desc_unique {V} (l1 l2 : list (key * V)) : desc l1 -> desc l2 -> (forall x, In x l1 <-> In x l2) -> l1 = l2.
Proof.
  intros D1. revert l2. induction D1 as [|x l S1 IH F]; intros l2 D2 E.
  - destruct l2 as [|y l2]; auto. exfalso. apply (proj2 (E y)). now left.
  - destruct D2 as [|y l2 S2 F2]; [exfalso; apply (proj1 (E x)); now left|]. rewrite Forall_forall in F, F2. assert (x = y).
    { destruct (proj1 (E x) (or_introl eq_refl)) as [Q|Q]; auto. destruct (proj2 (E y) (or_introl eq_refl)) as [Q'|Q']; auto. exfalso. apply (klt_asym KT (F _ Q') (F2 _ Q)). }
    subst y. f_equal. apply IH; auto. intros z. split; intros Z.
    + destruct (proj1 (E z) (or_intror Z)) as [<-|Q]; auto. exfalso. apply (klt_irrefl KT (F _ Z)).
    + destruct (proj2 (E z) (or_intror Z)) as [<-|Q]; auto. exfalso. apply (klt_irrefl KT (F2 _ Z)).
Qed.
Lemma take_last {A} limit (l : list A) : OfqSpec.limit_ok limit -> N.of_nat (List.length l) < 2 ^ 63 -> take (size limit) (rev l) = last_ones limit l.
Proof.
  intros LO LN. unfold take, last_ones. rewrite rev_length. destruct (Z.ltb_spec limit 0) as [NEG|POS].
  - pose proof (size_neg _ LO NEG). rewrite N.min_r by lia. rewrite Nat2N.id. apply firstn_all2. rewrite rev_length. auto.
  - rewrite size_pos by auto. destruct (N.le_gt_cases (Z.to_N limit) (N.of_nat (List.length l))) as [L|L].
    + rewrite N.min_l by auto. f_equal. lia.
    + rewrite N.min_r by lia. rewrite Nat2N.id, !firstn_all2; auto; rewrite rev_length; lia.
Qed.
Lemma last_ones_map {A B} (f : A -> B) limit l : last_ones limit (map f l) = map f (last_ones limit l).
Proof. unfold last_ones. destruct (limit <? 0)%Z; rewrite <- map_rev; auto. now rewrite firstn_map. Qed.
Lemma last_ones_in {A} limit (l : list A) x : In x (last_ones limit l) -> In x l.
Proof.
  unfold last_ones. destruct (limit <? 0)%Z; [now rewrite <- in_rev|]. intros X. apply in_rev. rewrite <- (firstn_skipn (Z.to_nat limit)). apply in_app_iff. auto.
Qed.
Lemma div_192 x : x < 2 ^ 192 -> x / 2 ^ 64 < 2 ^ 128.
Proof. intros L. apply N.div_lt_upper_bound; [discriminate|]. exact L. Qed.
Section TRADES.
  Variables (H : bytes -> addr) (binary : addr) (chain : list block) (s : state).
  Hypothesis FM : formed chain.
  Hypothesis RUN : run H binary genesis chain = Some s.
  Notation F := (facts H binary genesis chain).
  Notation D := (filter g_direct F).
  Hypothesis ORD : forall g, In g F -> g_direct g = true -> ordinary g.
  Lemma facts_len : N.of_nat (List.length D) < 2 ^ 63.
  Proof.
    pose proof (fm_number _ FM) as L. eapply N.le_lt_trans; [|exact L]. clear. assert (Q : forall base h l t s, (List.length (facts_items H binary base h t s l) <= List.length l)%nat).
    { intros base h l. induction l as [|i l IH]; intros t s; cbn [facts_items]; auto. destruct (step H binary base h t s i) as [(s', t')|]; [|cbn; lia]. rewrite app_length. specialize (IH t' s').
      assert (X : forall d c, (List.length (fact_of d h t c s s') <= 1)%nat).
      { intros d c. unfold fact_of. destruct (s_world s (o_offer c)); [|cbn; lia]. destruct (s_world s' (o_offer c)); [|cbn; lia]. destruct (o_deposit c) as [(?, ?)|]; [|cbn; lia]. destruct (o_method c); cbn; lia. }
      destruct i as [| c | c | |]; cbn [List.length]; try lia; [specialize (X true c)|specialize (X false c)]; lia. }
    assert (Y : forall s, (List.length (facts H binary s chain) <= fold_right (fun b n => List.length (b_items b) + n)%nat O chain)%nat).
    { induction chain as [|b l IH]; intros s0; cbn [facts fold_right]; auto. rewrite app_length. specialize (Q (s_world s0) (b_height b) (b_items b) (b_start b) s0). destruct (steps _ _ _ _ _ _ _) as [s1|]; [specialize (IH s1); lia|cbn; lia]. }
    specialize (Y genesis). assert (Z : forall (l : list fact), (List.length (filter g_direct l) <= List.length l)%nat) by (induction l as [|x l IH]; cbn [filter List.length]; [lia|destruct (g_direct x); cbn [List.length]; lia]). specialize (Z F). lia.
  Qed.
  Definition krow {V} (k : addr) (v : fact -> V) (g : fact) : key * V := (row k (g_height g) (g_ticket g), v g).
  Lemma krows_desc {V} k (v : fact -> V) w : desc (map (krow k v) (rev (filter w D))).
  Proof.
    destruct (whole_inv H binary chain s FM RUN) as (base & h & t & V0). pose proof (i_order _ _ _ _ _ _ _ _ V0) as SO.
    assert (Q : StronglySorted (fun x y => before (g_height x) (g_ticket x) (g_height y) (g_ticket y)) (filter w D)).
    { revert SO. generalize D. clear. induction l as [|x l IH]; intros S; cbn [filter]; [constructor|]. inversion_clear S as [|? ? S' FA]. destruct (w x); auto. constructor; auto. apply Forall_forall. intros y Y. apply filter_In in Y as (Y & _). rewrite Forall_forall in FA. auto. }
    revert Q. generalize (filter w D). clear. induction l as [|x l IH]; intros S; cbn [rev map]; [constructor|]. inversion_clear S as [|? ? S' FA]. rewrite map_app. apply desc_app; auto.
    - cbn. repeat constructor.
    - intros a b A [<-|[]]. apply in_map_iff in A as (y & <- & Y). apply in_rev in Y. rewrite Forall_forall in FA. specialize (FA _ Y). unfold before in FA. cbn [krow fst]. unfold row. rewrite klt_spec. right. split; auto; tauto.
  Qed.
  Lemma range_is {V} (tb : list (key * V)) (v : fact -> V) (names : fact -> list addr) k since w :
    tbl tb (fun x y => exists g z, In g F /\ g_direct g = true /\ In z (names g) /\ x = row z (g_height g) (g_ticket g) /\ y = v g) ->
    (forall g, In g D -> (In k (names g) /\ since <= g_height g) <-> w g = true) ->
    last_range ((k, since), 0) ((k, top), top) tb = map (krow k v) (rev (filter w D)).
  Proof.
    intros (SO & TB) NM. apply desc_unique; [now apply last_range_desc|apply krows_desc|]. intros (x, y). rewrite (last_range_in _ _ _ _ SO), TB, in_map_iff. cbn [fst]. split.
    - intros ((g & z & G1 & G2 & G3 & -> & ->) & L1 & L2). exists g. assert (z = k /\ since <= g_height g) as (-> & LE).
      { unfold row in L1, L2. rewrite klt_spec in L1. destruct L2 as [L2|L2]; [injection L2 as -> -> _; split; auto; lia|]. rewrite klt_spec in L2. destruct L1 as [L1|(-> & _)].
        + destruct L2 as [L2|(-> & L2)]; [exfalso; apply (klt_asym bytescmp_total L1 L2)|]. rewrite (cmp_refl bytescmp_total) in L1. discriminate.
        + split; auto. destruct L2 as [L2|(_ & L2)]; [rewrite (cmp_refl bytescmp_total) in L2; discriminate|lia]. }
      split; auto. apply -> in_rev. apply filter_In. split; [apply filter_In; auto|]. apply NM; auto. apply filter_In; auto.
    - intros (g & E & G). apply in_rev in G. apply filter_In in G as (G & W). apply NM in W as (W1 & W2); auto. apply filter_In in G as (G1 & G2). unfold krow in E. injection E as <- <-.
      split; [exists g, k; auto|]. destruct (facts_top H binary chain FM _ G1) as (T1 & T2). unfold row. rewrite !klt_spec. unfold top. split; [right; auto|].
      destruct (N.eq_dec since (g_height g)) as [->|]; [destruct (N.eq_dec (g_ticket g) 0) as [->|]|]; auto; right; right; split; auto; [right; split; auto; lia|left; lia].
  Qed.
  Definition the_trade (g : fact) : trade := mk_trade (g_offer g) (g_offered g) (g_price g mod 2 ^ 128).
  Lemma entries_ok l : (forall g, In g l -> In g F /\ g_direct g = true) -> exists es, make_entries s (map (fun g => (g_height g, the_trade g)) l) = Some es /\ Forall2 reports es l.
  Proof.
    destruct (whole_inv H binary chain s FM RUN) as (base & h & t & V). induction l as [|g l IH]; intros IN; [exists []; split; [reflexivity|constructor]|].
    destruct IH as (es & E & R); [intros; apply IN; now right|]. destruct (IN g (or_introl eq_refl)) as (G1 & G2). destruct (ORD _ G1 G2) as (O1 & O2 & O3 & O4). destruct (i_fine _ _ _ _ _ _ _ _ V _ G1) as (FI & f & W & W1 & W2).
    destruct (FI O1 O2 O3) as (F1 & F2 & F3). cbn [map make_entries]. unfold make_entry. cbn [the_trade t_offer t_ask_amount t_price]. rewrite (N.mod_small _ _ O3). pose proof (div_192 _ O4) as B.
    destruct (N.leb_spec (2 ^ 128) (g_offered g * g_price g / 2 ^ 64)) as [L|_]; [exfalso; revert L B; generalize (2 ^ 128); intros; lia|]. rewrite W, E. eexists. split; [reflexivity|]. constructor; auto.
    constructor; cbn [y_height y_offer y_bid y_ask y_bid_amount y_ask_amount]; auto. intros PL. destruct (F3 PL). auto.
  Qed.
  Lemma trades_tbl : tbl (s_trades s) (fun x y => exists g z, In g F /\ g_direct g = true /\ In z [[]] /\ x = row z (g_height g) (g_ticket g) /\ y = the_trade g).
  Proof.
    destruct (whole_inv H binary chain s FM RUN) as (base & h & t & V). eapply tbl_ext; [exact (i_trades _ _ _ _ _ _ _ _ V)|]. intros k v. unfold trade_rows. split.
    - intros (g & G1 & G2 & G3 & G4). exists g, []. cbn. auto 10.
    - intros (g & z & G1 & G2 & [<-|[]] & G3 & G4). exists g. auto.
  Qed.
  Lemma history_ok limit since : OfqSpec.limit_ok limit -> exists es, get_trade_history s limit since = Some es /\ Forall2 reports es (last_ones limit (filter (OfqSpec.wanted None None since) D)).
  Proof.
    intros LO. unfold get_trade_history. pose proof (range_is (s_trades s) the_trade (fun _ => [[]]) [] since (OfqSpec.wanted None None since) trades_tbl) as Q.
    match goal with |- context [last_range ?lo ?hi ?tb] => replace (last_range lo hi tb) with (map (krow [] the_trade) (rev (filter (OfqSpec.wanted None None since) D))) end.
    2: { symmetry. apply Q. intros g G. unfold OfqSpec.wanted. cbn [andb In]. rewrite N.leb_le. tauto. }
    clear Q.
    rewrite map_rev, take_last; auto.
    2: { rewrite map_length. eapply N.le_lt_trans; [|apply facts_len]. assert (Z : forall w (l : list fact), (List.length (filter w l) <= List.length l)%nat) by (intros w; induction l as [|x l IH]; cbn [filter List.length]; [lia|destruct (w x); cbn [List.length]; lia]). specialize (Z (OfqSpec.wanted None None since) D). lia. }
    rewrite last_ones_map, map_map. cbn [krow fst snd]. apply entries_ok. intros g G. apply last_ones_in in G. apply filter_In in G as (G & _). now apply filter_In in G.
  Qed.
  Definition trade_pairs : list (addr * addr) := map (fun g => (g_ask g, g_bid g)) D.
  Lemma history_for_ok bid ask limit since : OfqSpec.limit_ok limit -> clear H trade_pairs bid ask -> (forall g, In g D -> g_deployed g < g_height g /\ List.length (g_bid g) = 32%nat /\ List.length (g_ask g) = 32%nat) ->
    exists es, get_trade_history_for H s bid ask limit since = Some es /\ Forall2 reports es (last_ones limit (filter (OfqSpec.wanted bid ask since) D)).
  Proof.
    intros LO CL AD. unfold get_trade_history_for. rewrite search_string. destruct (match bid, ask with None, None => true | _, _ => false end) eqn:NN.
    { destruct bid; [destruct ask; discriminate|]. destruct ask; [discriminate|]. now apply history_ok. }
    assert (SOME : bid <> None \/ ask <> None) by (destruct bid; [left; discriminate|]; destruct ask; [right|]; discriminate).
    destruct (whole_inv H binary chain s FM RUN) as (base & h & t & V).
    assert (TB : tbl (s_traded s) (fun x y => exists g z, In g F /\ g_direct g = true /\ In z (marked H (shown_bid g) (g_ask g)) /\ x = row z (g_height g) (g_ticket g) /\ y = tt)).
    { eapply tbl_ext; [exact (i_traded _ _ _ _ _ _ _ _ V)|]. intros k v. unfold traded_rows. split.
      - intros (g & z & G). exists g, z. destruct v. intuition auto.
      - intros (g & z & G). exists g, z. intuition auto. }
    rewrite (range_is (s_traded s) (fun _ => tt) _ (H (string_of bid ask)) since (OfqSpec.wanted bid ask since) TB).
    2: { intros g G. destruct (AD _ G) as (A1 & A2 & A3). unfold shown_bid. apply N.ltb_lt in A1. rewrite A1. unfold marked. rewrite (clear_ok H trade_pairs); auto; [|unfold trade_pairs; apply in_map_iff; eauto].
         unfold OfqSpec.wanted. rewrite !andb_true_iff, N.leb_le. assert (X : forall o a, match o with Some b => addr_eqb a b | None => true end = true <-> is_some o a).
         { intros [x|] a; cbn; [|tauto]. rewrite addr_eqb_iff. split; congruence. }
         rewrite !X. tauto. }
    rewrite map_rev, take_last; auto.
    2: { rewrite map_length. eapply N.le_lt_trans; [|apply facts_len]. assert (Z : forall w (l : list fact), (List.length (filter w l) <= List.length l)%nat) by (intros w; induction l as [|x l IH]; cbn [filter List.length]; [lia|destruct (w x); cbn [List.length]; lia]). specialize (Z (OfqSpec.wanted bid ask since) D). lia. }
    rewrite last_ones_map. set (l := last_ones limit (filter (OfqSpec.wanted bid ask since) D)).
    assert (IN : forall g, In g l -> In g F /\ g_direct g = true) by (intros g G; apply last_ones_in in G; apply filter_In in G as (G & _); now apply filter_In in G).
    assert (Q : flat_map (fun r : key * unit => match aget key_cmp (([], k_height (fst r)), snd (fst r)) (s_trades s) with Some t => [(k_height (fst r), t)] | None => [] end) (map (krow (H (string_of bid ask)) (fun _ => tt)) l) = map (fun g => (g_height g, the_trade g)) l).
    { clearbody l. induction l as [|g l IH]; auto. cbn [map flat_map krow fst snd row k_height]. destruct (IN g (or_introl eq_refl)) as (G1 & G2).
      assert (AG : aget key_cmp (([], g_height g), g_ticket g) (s_trades s) = Some (the_trade g)). { apply (aget_In KT); [apply trades_tbl|]. apply trades_tbl. exists g, []. cbn. auto 10. }
      change (snd (fst (H (string_of bid ask), g_height g, g_ticket g))) with (g_height g). rewrite AG. cbn [app]. f_equal. apply IH. intros; apply IN; now right. }
    rewrite Q. now apply entries_ok.
  Qed.
End TRADES.
