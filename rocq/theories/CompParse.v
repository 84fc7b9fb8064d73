(** The compiler, run on the parse tree of an expression, makes the code of [CompGen.gexp]. *)
Require Import List Arith NArith ZArith Bool String Lia.
From Verif Require Import BytesLib VarModel InstrModel EngineModel CompModel CompSpec CompGen.
Import List ListNotations.
Open Scope N_scope.

Lemma cbind_ok {A B} (m : C A) (k : A -> C B) s b s' :
  cbind m k s = COk b s' -> exists a s1, m s = COk a s1 /\ k a s1 = COk b s'.
Proof. unfold cbind. destruct (m s) as [a s1| | |] eqn:E; try discriminate. eauto. Qed.
Lemma cok_inj {A} (a b : A) s t : COk a s = COk b t -> a = b /\ s = t.
Proof. intros H. now inversion H. Qed.
Lemma cok_inj2 {A B} (a b : A) (c d : B) s t : COk (a, c) s = COk (b, d) t -> a = b /\ c = d /\ s = t.
Proof. intros H. now inversion H. Qed.
Lemma cok_inj3 {A B D} (a b : A) (c d : B) (e f : D) s t : COk (a, c, e) s = COk (b, d, f) t -> a = b /\ c = d /\ e = f /\ s = t.
Proof. intros H. now inversion H. Qed.
Ltac ok1 H := apply cok_inj in H; destruct H as [<- <-].
Ltac ok2 H := apply cok_inj2 in H; destruct H as [<- [<- <-]].
Ltac ok3 H := apply cok_inj3 in H; destruct H as [<- [<- [<- <-]]].
Section PARSE.
  Variable fl : flags.
  Variable text : list node -> bytes.
  Variable fns : list fn.
  Variable globals : list (ident * variable).
  Variable cc : bool.
  Notation expr := (CompModel.expr fl text fns globals cc).
  Notation gexp := (CompGen.gexp fl fns).

  Definition scp (V : list (ident * variable)) (fs : list frame) := concat (map f_vars (mk_frame 0 V :: fs)) ++ globals.
  Fixpoint links_at (n : nat) (c : list ains) : list (nat * ident) :=
    match c with
    | [] => []
    | (_, Some f) :: c => (n, f) :: links_at (S n) c
    | (_, None) :: c => links_at (S n) c
    end.
  Lemma links_at_app n c c' : links_at n (c ++ c') = links_at n c ++ links_at (n + List.length c) c'.
  Proof.
    revert n; induction c as [|[i [f|]] c IH]; intros n; cbn [app links_at List.length].
    - now rewrite Nat.add_0_r.
    - rewrite IH. cbn. now rewrite Nat.add_succ_r.
    - rewrite IH. now rewrite Nat.add_succ_r.
  Qed.
  (** the state of the compiler in a scope with variables [V] inside of [fs] *)
  Definition state cd off V fs K L := mk_cst cd (mk_frame off V :: fs) K L.
  Definition after cd (c : list ains) off V fs K L := state (cd ++ map fst c) off V fs K (L ++ links_at (List.length cd) c).
  Lemma after_nil cd off V fs K L : after cd [] off V fs K L = state cd off V fs K L.
  Proof. unfold after. cbn. now rewrite !app_nil_r. Qed.
  Lemma after_after cd c c' off' V' fs K' L :
    after (cd ++ map fst c) c' off' V' fs K' (L ++ links_at (List.length cd) c) = after cd (c ++ c') off' V' fs K' L.
  Proof.
    unfold after. rewrite map_app, links_at_app, !app_assoc, app_length, map_length. reflexivity.
  Qed.
  Lemma emit_after cd op f a b c off V fs K L :
    emit op f a b c (state cd off V fs K L) = COk tt (after cd [ins op f a b c] off V fs K L).
  Proof. unfold emit, after, state. cbn. now rewrite app_nil_r. Qed.
  Lemma get_const_state v cd off V fs K L :
    get_const v (state cd off V fs K L) = COk (fst (kaddr v K)) (state cd off V fs (snd (kaddr v K)) L).
  Proof. unfold get_const, kaddr, state. cbn. destruct (const_pos v K); reflexivity. Qed.
  Lemma new_addr_state cd off V fs K L :
    new_addr (state cd off V fs K L) = COk (MEM_STACK + off) (state cd (off + 1) V fs K L).
  Proof. reflexivity. Qed.
  Lemma optimize_state op f r cd off V fs K L :
    optimize fl op f r (state cd off V fs K L) =
    let '(op', f', r', K') := gopt fl op f r K in COk (op', f', r') (state cd off V fs K' L).
  Proof.
    unfold optimize, gopt. cbn [c_consts state].
    destruct (((op =? OP_DIV) || (op =? OP_MOD)) && (r <? N.of_nat (List.length K)) && fl_opt fl); [|reflexivity].
    destruct (nth_error K (N.to_nat r)) as [v|]; [|reflexivity].
    destruct (pow2 v) as [n|]; [|reflexivity].
    destruct (op =? OP_DIV); [reflexivity|].
    change (mk_cst cd (mk_frame off V :: fs) K L) with (state cd off V fs K L).
    unfold cbind. rewrite get_const_state. destruct (kaddr _ K); reflexivity.
  Qed.
  Lemma copy_state d r cd off V fs K L x s' :
    copy d r (state cd off V fs K L) = COk x s' ->
    check_value r = true /\ check_value d = true /\ r_const d = false /\ x = d /\
    s' = after cd (gcopy (r_addr d) (r_addr r)) off V fs K L.
  Proof.
    unfold copy, gcopy. destruct (check_value r); [|discriminate]. destruct (check_value d); [|discriminate].
    destruct (r_const d); [discriminate|]. cbn [andb negb].
    destruct (r_addr d =? r_addr r) eqn:E; unfold cbind.
    - cbn. intros H. injection H as <- <-. rewrite after_nil. auto.
    - rewrite emit_after. intros H. injection H as <- <-. auto.
  Qed.

  (** ranks *)
  Definition rank_of (e : exp) : Z :=
    match e with
    | Lit _ => 0 | Var _ => 1 | Not _ | Flip _ => 7 | Paren _ | Pick _ _ _ | Call _ _ => 4
    | Bin o _ _ => match op_rank (sym o) with Some r => r | None => 0 end
    end%Z.
  Lemma rank_sym o : exists r, op_rank (sym o) = Some r /\ (8 <= r <= 15)%Z.
  Proof. destruct o; eexists; (split; [reflexivity|lia]). Qed.
  Definition fits (rk : Z) (e : exp) : Prop := (rk < 0 \/ rank_of e < rk /\ 7 <= rk)%Z.
  (** what follows cannot belong to [e] *)
  Definition stops (e : exp) (rest : list node) : Prop :=
    match rest with
    | [] => True
    | NOp op :: _ => exists r, op_rank op = Some r /\ (8 <= r)%Z /\ (rank_of e <= r)%Z
    | _ => False
    end.
  Lemma customary_ranks o e : customary e = true -> unmixed e = true -> mixes o e = false ->
    (level e <=? level_op o = true -> exists r, op_rank (sym o) = Some r /\ (rank_of e <= r)%Z) /\
    (level e <? level_op o = true -> exists r, op_rank (sym o) = Some r /\ (rank_of e < r)%Z).
  Proof.
    intros _ _ M. destruct e as [v|x|e|e|o' a b|e|q a l|f l];
      try (split; intros _; destruct o; eexists; (split; [reflexivity|cbn; lia])).
    split; intros H; destruct o, o'; try discriminate M; try discriminate H; eexists; (split; [reflexivity|cbn; lia]).
  Qed.

  Definition result e cd off V fs K L (re : vref) (s1 : cst) : Prop :=
    check_value re = true ->
    exists c off' K', gexp (scp V fs) e off K = Some (c, r_addr re, off', K') /\ s1 = after cd c off' V fs K' L.

  (** one step of [expr] on a node that belongs to it *)
  Lemma expr_node n nd ns lhs rk s r rest' s' rank :
    node_rank nd = Some rank -> (rk < 0 \/ rank < rk)%Z ->
    expr n (nd :: ns) lhs rk s = COk (r, rest') s' ->
    exists m out rest s1, n = S m /\ one_node fl text fns globals cc (expr m) nd rank lhs ns s = COk (out, rest) s1 /\
                          expr m rest (Some out) rk s1 = COk (r, rest') s'.
  Proof.
    intros R Hr H. destruct n as [|m]; [discriminate|]. cbn [CompModel.expr] in H. rewrite R in H.
    replace ((0 <=? rk)%Z && (rk <=? rank)%Z) with false in H by (destruct (Z.leb_spec 0 rk), (Z.leb_spec rk rank); cbn; lia).
    apply cbind_ok in H. destruct H as ([out rest] & s1 & H1 & H). exists m, out, rest, s1. auto.
  Qed.
  (** [expr] ends before an operator that binds less, and at the end *)
  Lemma expr_stop n rest lhs rk s r rest' s' :
    (match rest with [] => True | NOp op :: _ => exists r, op_rank op = Some r /\ (0 <= rk <= r)%Z | _ => False end) ->
    expr n rest (Some lhs) rk s = COk (r, rest') s' -> r = lhs /\ rest' = rest /\ s' = s.
  Proof.
    intros S H. destruct n as [|m]; [discriminate|]. cbn [CompModel.expr] in H.
    destruct rest as [|nd rest].
    - unfold cret in H. injection H as <- <- <-. auto.
    - destruct nd as [| |op|]; try contradiction. destruct S as (q & Q1 & Q2). cbn [node_rank] in H. rewrite Q1 in H.
      replace ((0 <=? rk)%Z && (rk <=? q)%Z) with true in H by (destruct (Z.leb_spec 0 rk), (Z.leb_spec rk q); cbn; lia).
      unfold cret in H. injection H as <- <- <-. auto.
  Qed.

  Section EXPIND.
    Variable P : exp -> Prop.
    Hypothesis HLit : forall v, P (Lit v).
    Hypothesis HVar : forall x, P (Var x).
    Hypothesis HNot : forall e, P e -> P (Not e).
    Hypothesis HFlip : forall e, P e -> P (Flip e).
    Hypothesis HBin : forall o a b, P a -> P b -> P (Bin o a b).
    Hypothesis HParen : forall e, P e -> P (Paren e).
    Hypothesis HPick : forall q a l, P a -> Forall P l -> P (Pick q a l).
    Hypothesis HCall : forall f l, Forall P l -> P (Call f l).
    Fixpoint exp_ind2 (e : exp) : P e :=
      let all := fix all (l : list exp) : Forall P l :=
        match l with [] => Forall_nil P | e :: l => Forall_cons e (exp_ind2 e) (all l) end in
      match e with
      | Lit v => HLit v
      | Var x => HVar x
      | Not e => HNot e (exp_ind2 e)
      | Flip e => HFlip e (exp_ind2 e)
      | Bin o a b => HBin o a b (exp_ind2 a) (exp_ind2 b)
      | Paren e => HParen e (exp_ind2 e)
      | Pick q a l => HPick q a l (exp_ind2 a) (all l)
      | Call f l => HCall f l (all l)
      end.
  End EXPIND.

  Definition parses (e : exp) : Prop :=
    customary e && unmixed e && proper e = true ->
    forall n rest rk cd off V fs K L r rest' s',
    fits rk e -> stops e rest ->
    expr n (flat e ++ rest) None rk (state cd off V fs K L) = COk (r, rest') s' ->
    exists n' re s1, expr n' rest (Some re) rk s1 = COk (r, rest') s' /\ result e cd off V fs K L re s1.

  (** a whole expression *)
  Lemma parses_sub e n cd off V fs K L r s' : parses e -> customary e && unmixed e && proper e = true ->
    sub_with (expr n) (flat e) (state cd off V fs K L) = COk r s' ->
    check_value r = true /\
    exists c off' K', gexp (scp V fs) e off K = Some (c, r_addr r, off', K') /\ s' = after cd c off' V fs K' L.
  Proof.
    intros P W H. unfold sub_with in H. apply cbind_ok in H. destruct H as ([r1 rest1] & s1 & H1 & H). cbv beta iota in H.
    destruct rest1; [|discriminate].
    destruct (check_value r1) eqn:Ck; [|discriminate]. unfold cret in H. injection H as -> ->.
    destruct (P W n [] (-1)%Z cd off V fs K L r [] s') as (n' & re & s2 & E & R).
    - left. lia.
    - exact I.
    - now rewrite app_nil_r.
    - apply expr_stop in E; [|exact I]. destruct E as (-> & _ & ->). split; auto.
  Qed.
  Lemma parses_list l n : Forall parses l -> forallb customary l && forallb unmixed l && forallb proper l = true ->
    forall cd off V fs K L rs s',
    mapC (sub_with (expr n)) (map flat l) (state cd off V fs K L) = COk rs s' ->
    Forall (fun r => check_value r = true) rs /\ List.length rs = List.length l /\
    exists c off' K', gexps (gexp (scp V fs)) l off K = Some (c, map r_addr rs, off', K') /\ s' = after cd c off' V fs K' L.
  Proof.
    induction 1 as [|e l P _ IH]; intros W cd off V fs K L rs s' H; cbn [map mapC] in H.
    - unfold cret in H. injection H as <- <-. repeat (split; [auto; constructor|]). exists [], off, K. split; [reflexivity|].
      now rewrite after_nil.
    - cbn [forallb] in W. repeat rewrite andb_true_iff in W.
      apply cbind_ok in H. destruct H as (r & s1 & H1 & H). apply cbind_ok in H. destruct H as (rs' & s2 & H2 & H).
      unfold cret in H. injection H as <- <-.
      apply parses_sub in H1; [|assumption|repeat rewrite andb_true_iff; tauto].
      destruct H1 as (Ck & c & off1 & K1 & G & ->). unfold after in H2.
      apply IH in H2; [|repeat rewrite andb_true_iff; tauto]. destruct H2 as (F & Ln & c2 & off2 & K2 & G2 & ->).
      split; [constructor; auto|]. split; [cbn; congruence|].
      exists (c ++ c2), off2, K2. cbn [gexps map]. rewrite G, G2. split; [reflexivity|].
      apply after_after.
  Qed.
  Lemma parses_pick op dst l n : Forall parses l -> forallb customary l && forallb unmixed l && forallb proper l = true ->
    forall lhs cd off V fs K L u s',
    pick (expr n) op dst lhs (map flat l) (state cd off V fs K L) = COk u s' ->
    exists c off' K', gpicks (gexp (scp V fs)) op dst lhs l off K = Some (c, off', K') /\ s' = after cd c off' V fs K' L.
  Proof.
    induction 1 as [|e l P _ IH]; intros W lhs cd off V fs K L u s' H; cbn [map pick] in H.
    - unfold cret in H. injection H as <- <-. exists [], off, K. split; [reflexivity|]. now rewrite after_nil.
    - cbn [forallb] in W. repeat rewrite andb_true_iff in W.
      apply cbind_ok in H. destruct H as (r & s1 & H1 & H). apply cbind_ok in H. destruct H as (a & s2 & H2 & H).
      apply cbind_ok in H. destruct H as ([] & s3 & H3 & H).
      apply parses_sub in H1; [|assumption|repeat rewrite andb_true_iff; tauto].
      destruct H1 as (Ck & c & off1 & K1 & G & ->). unfold get in H2. rewrite Ck in H2. unfold cret in H2. injection H2 as <- <-.
      unfold after in H3. rewrite emit_after in H3. injection H3 as <-. unfold after in H.
      apply IH in H; [|repeat rewrite andb_true_iff; tauto]. destruct H as (c2 & off2 & K2 & G2 & ->).
      exists (c ++ ins op 0 dst lhs (r_addr r) :: c2), off2, K2. cbn [gpicks]. rewrite G, G2. split; [reflexivity|].
      change (ins op 0 dst lhs (r_addr r) :: c2) with ([ins op 0 dst lhs (r_addr r)] ++ c2). rewrite app_assoc.
      rewrite <- after_after. rewrite map_app, links_at_app, !app_assoc, app_length, map_length.
      reflexivity.
  Qed.
  Lemma copy_args_state rs : forall d cd off V fs K L u s',
    copy_args d rs (state cd off V fs K L) = COk u s' -> s' = after cd (gcopies d (map r_addr rs)) off V fs K L.
  Proof.
    induction rs as [|r rs IH]; intros d cd off V fs K L u s' H; cbn [copy_args] in H.
    - unfold cret in H. injection H as <- <-. now rewrite after_nil.
    - apply cbind_ok in H. destruct H as (x & s1 & H1 & H). apply copy_state in H1. destruct H1 as (_ & _ & _ & _ & ->).
      unfold after in H. apply IH in H. subst. cbn [map gcopies]. apply after_after.
  Qed.
  Lemma default_args_state l : forall d cd off V fs K L u s',
    default_args d l (state cd off V fs K L) = COk u s' ->
    s' = after cd (fst (gdefaults d l K)) off V fs (snd (gdefaults d l K)) L.
  Proof.
    induction l as [|[x v] l IH]; intros d cd off V fs K L u s' H; cbn [default_args] in H.
    - unfold cret in H. injection H as <- <-. now rewrite after_nil.
    - cbn [gdefaults]. apply cbind_ok in H. destruct H as (a & s1 & H1 & H). apply cbind_ok in H. destruct H as ([] & s2 & H2 & H).
      assert (s1 = state cd off V fs (snd match v with Some v => kaddr v K | None => (0, K) end) L /\
              a = fst match v with Some v => kaddr v K | None => (0, K) end) as [-> ->].
      { destruct v as [v|]; [rewrite get_const_state in H1|unfold cret in H1]; injection H1 as <- <-; auto. }
      destruct (match v with Some v => kaddr v K | None => (0, K) end) as [a K1]. cbn [fst snd] in *.
      rewrite emit_after in H2. injection H2 as <-. unfold after in H. apply IH in H. subst.
      destruct (gdefaults (d + 1) l K1) as [c K2]. cbn [fst snd].
      change (ins OP_COPY 0 d a 0 :: c) with ([ins OP_COPY 0 d a 0] ++ c). apply after_after.
  Qed.

  Lemma find_state x cd off V fs K L : find_variable globals (state cd off V fs K L) x = lookup_var x (scp V fs).
  Proof. reflexivity. Qed.

  Definition halts (rk : Z) (rest : list node) : Prop :=
    match rest with
    | [] => True
    | NOp op :: _ => exists r, op_rank op = Some r /\ (8 <= r)%Z /\ (rk <= r)%Z
    | _ => False
    end.
  (** an operand: what stands between two operators *)
  Lemma operand e rk n rest cd off V fs K L r rest' s' :
    parses e -> customary e && unmixed e && proper e = true -> (7 <= rk)%Z -> (rank_of e < rk)%Z -> halts rk rest ->
    expr n (flat e ++ rest) None rk (state cd off V fs K L) = COk (r, rest') s' ->
    rest' = rest /\ result e cd off V fs K L r s'.
  Proof.
    intros P W R1 R2 Hh H. apply P in H; auto.
    - destruct H as (n' & re & s1 & E & R). apply expr_stop in E.
      + destruct E as (-> & -> & ->). auto.
      + destruct rest as [|[| |op|] rest]; auto. destruct Hh as (q & Q1 & Q2 & Q3). exists q. split; auto; lia.
    - right. lia.
    - destruct rest as [|[| |op|] rest]; auto. destruct Hh as (q & Q1 & Q2 & Q3). exists q. split; [auto|split; lia].
  Qed.
  Lemma unary_operand e n rest cd off V fs K L r rest' s' :
    parses e -> customary e && unmixed e && proper e = true -> (level e <=? 4) = true -> halts 7 rest ->
    expr n (flat e ++ rest) None 7 (state cd off V fs K L) = COk (r, rest') s' ->
    rest' = rest /\ result e cd off V fs K L r s'.
  Proof.
    intros P W Lv Hh H.
    assert (D : (rank_of e < 7)%Z \/ (exists e', e = Not e' \/ e = Flip e')).
    { destruct e as [v|x|e|e|o a b|e|q a l|f l]; try (left; reflexivity); try (right; eauto; fail).
      destruct o; discriminate Lv. }
    destruct D as [D|(e' & [-> | ->])].
    - apply operand in H; auto. lia.
    - destruct n as [|n]; discriminate H.
    - destruct n as [|n]; discriminate H.
  Qed.
  Definition unary_code (op : string) (r : vref * list node) : C (vref * list node) :=
    let! out := new_addr in
    let! a := get (fst r) in
    do! emit OP_NOT (if String.eqb op "~" then FLAG_BITWISE else 0) out a 0 in cret (at_addr out, snd r).
  Lemma operator_unary op rec ns s : In op ["!"; "~"]%string ->
    operator fl rec op 7 None ns s =
    match ns with [] => CErr | _ => cbind (rec ns None 7%Z) (unary_code op) s end.
  Proof.
    intros [<- | [<- | []]]; destruct ns; try reflexivity; cbn; unfold cbind; destruct (rec (n :: ns) None 7%Z s) as [[? ?]| | |]; reflexivity.
  Qed.
  Lemma parses_unary e op n rest rk cd off V fs K L r rest' s' :
    In op ["!"; "~"]%string ->
    parses e -> customary e && unmixed e && proper e = true -> (level e <=? 4) = true ->
    (rk < 0 \/ 7 < rk)%Z -> halts 7 rest ->
    expr n (NOp op :: flat e ++ rest) None rk (state cd off V fs K L) = COk (r, rest') s' ->
    exists n' re s1, expr n' rest (Some re) rk s1 = COk (r, rest') s' /\
      exists c a off' K', gexp (scp V fs) e off K = Some (c, a, off', K') /\ r_addr re = MEM_STACK + off' /\
                          s1 = after cd (c ++ [ins OP_NOT (if String.eqb op "~" then FLAG_BITWISE else 0) (MEM_STACK + off') a 0]) (off' + 1) V fs K' L.
  Proof.
    intros Ho P W Lv Hf Hs H.
    apply expr_node with (rank := 7%Z) in H; [|destruct Ho as [<- | [<- | []]]; reflexivity|lia].
    destruct H as (m & out & rest1 & s1 & -> & H1 & H). cbn [one_node] in H1. rewrite operator_unary in H1 by assumption.
    destruct (flat e ++ rest) as [|nd ns] eqn:Fe; [discriminate|]. rewrite <- Fe in H1.
    apply cbind_ok in H1. destruct H1 as ([r1 rest2] & s2 & H1 & H2).
    apply unary_operand in H1; auto. destruct H1 as (-> & R).
    unfold unary_code in H2. cbn [fst snd] in H2.
    apply cbind_ok in H2. destruct H2 as (o1 & s4 & H3 & H2). apply cbind_ok in H2. destruct H2 as (a1 & s5 & H4 & H2).
    unfold get in H4. destruct (check_value r1) eqn:Ck; [|discriminate H4]. destruct (R Ck) as (c & off1 & K1 & G & ->).
    unfold after in H3. rewrite new_addr_state in H3. ok1 H3. unfold cret in H4. ok1 H4.
    unfold cbind in H2. rewrite emit_after in H2. unfold cret in H2. ok2 H2.
    eexists m, _, _. split; [exact H|]. exists c, (r_addr r1), off1, K1. split; [exact G|]. split; [reflexivity|].
    apply after_after.
  Qed.
  Lemma operator_simple o rec rank lhs ns : is_shift o = false ->
    operator fl rec (sym o) rank lhs ns = simple_op fl rec (sym o) (code_of o) false lhs rank ns.
  Proof. destruct o; try discriminate; reflexivity. Qed.
  Lemma operator_shift o rec rank l ns : is_shift o = true ->
    operator fl rec (sym o) rank (Some l) ns =
    (let! out := new_addr in
     let! (r, rest) := rec ns None rank in
     let! b := get r in
     let! a := get l in
     do! emit (code_of o) FLAG_REF_C out a b in cret (at_addr out, rest)).
  Proof. destruct o; try discriminate; reflexivity. Qed.
  Lemma get_ok r s a s' : get r s = COk a s' -> check_value r = true /\ a = r_addr r /\ s' = s.
  Proof. unfold get. destruct (check_value r); [|discriminate]. unfold cret. intros H. ok1 H. auto. Qed.

  Lemma parses_bin o a b : parses a -> parses b -> parses (Bin o a b).
  Proof.
    intros Pa Pb W n rest rk cd off V fs K L r rest' s' Hf Hs H.
    cbn [customary unmixed proper] in W. repeat rewrite andb_true_iff in W.
    destruct W as [[[[[Ca Cb] La] Lb] [[[Ua Ub] Ma] Mb]] [Sa Sb]]. apply negb_true_iff in Ma, Mb.
    destruct (proj1 (customary_ranks o a Ca Ua Ma) La) as (ro & Ro & Ra).
    destruct (proj2 (customary_ranks o b Cb Ub Mb) Lb) as (ro' & Ro' & Rb). rewrite Ro in Ro'. injection Ro' as <-.
    destruct (rank_sym o) as (ro' & Ro' & Bo). rewrite Ro in Ro'. injection Ro' as <-.
    assert (Rk : (rk < 0 \/ ro < rk)%Z). { destruct Hf as [|[Hf _]]; [auto|right]. unfold rank_of in Hf. rewrite Ro in Hf. exact Hf. }
    assert (Hh : halts ro rest).
    { destruct rest as [|[| |op|] rest]; auto. destruct Hs as (q & Q1 & Q2 & Q3). unfold rank_of in Q3. rewrite Ro in Q3. exists q. auto. }
    cbn [flat] in H. rewrite <- app_assoc in H. cbn [app] in H.
    apply Pa in H; [| rewrite Ca, Ua, Sa; reflexivity | destruct Rk; [left; lia|right; lia] | exists ro; repeat split; auto; lia].
    destruct H as (n1 & re & s1 & H & R).
    apply expr_node with (rank := ro) in H; [|exact Ro|exact Rk].
    destruct H as (m & out & rest1 & s2 & -> & H1 & H). cbn [one_node] in H1.
    destruct (is_shift o) eqn:Sh.
    - rewrite operator_shift in H1 by assumption.
      apply cbind_ok in H1. destruct H1 as (oa & s3 & H2 & H1).
      apply cbind_ok in H1. destruct H1 as ([r1 rest2] & s4 & H3 & H1). cbv beta iota in H1.
      apply cbind_ok in H1. destruct H1 as (bb & s5 & H4 & H1). apply get_ok in H4. destruct H4 as (Ck1 & -> & ->).
      apply cbind_ok in H1. destruct H1 as (aa & s6 & H5 & H1). apply get_ok in H5. destruct H5 as (Ck & -> & ->).
      destruct (R Ck) as (c & off1 & K1 & G & ->). unfold after in H2. rewrite new_addr_state in H2. ok1 H2.
      apply operand in H3; auto; [|rewrite Cb, Ub, Sb; reflexivity|lia]. destruct H3 as (-> & R1).
      destruct (R1 Ck1) as (c1 & off2 & K2 & G1 & ->). unfold after in H1. unfold cbind in H1. rewrite emit_after in H1.
      unfold cret in H1. ok2 H1.
      eexists m, _, _. split; [exact H|]. intros _.
      exists (c ++ c1 ++ [ins (code_of o) FLAG_REF_C (MEM_STACK + off1) (r_addr re) (r_addr r1)]), off2, K2.
      split; [cbn [CompGen.gexp]; rewrite G, Sh, G1; reflexivity|].
      rewrite !after_after, <- ?app_assoc. reflexivity.
    - rewrite operator_simple in H1 by assumption. unfold simple_op in H1.
      destruct (flat b ++ rest) as [|nd ns] eqn:Fb; [discriminate|]. rewrite <- Fb in H1.
      apply cbind_ok in H1. destruct H1 as ([r1 rest2] & s4 & H3 & H1). cbv beta iota in H1.
      apply cbind_ok in H1. destruct H1 as (bb & s5 & H4 & H1). apply get_ok in H4. destruct H4 as (Ck1 & -> & ->).
      apply cbind_ok in H1. destruct H1 as ([[op f] rhs] & s6 & H5 & H1). cbv beta iota in H1.
      apply cbind_ok in H1. destruct H1 as (oa & s7 & H6 & H1).
      apply cbind_ok in H1. destruct H1 as (aa & s8 & H7 & H1). apply get_ok in H7. destruct H7 as (Ck & -> & ->).
      destruct (R Ck) as (c & off1 & K1 & G & ->). unfold after in H3.
      apply operand in H3; auto; [|rewrite Cb, Ub, Sb; reflexivity|lia]. destruct H3 as (-> & R1).
      destruct (R1 Ck1) as (c1 & off2 & K2 & G1 & ->). unfold after in H5.
      rewrite optimize_state in H5. destruct (gopt fl (code_of o) (op_flags fl (sym o) (code_of o)) (r_addr r1) K2) as [[[op' f'] rhs'] K3] eqn:Go.
      ok3 H5. rewrite new_addr_state in H6. ok1 H6.
      unfold cbind in H1. rewrite emit_after in H1. unfold cret in H1. ok2 H1.
      eexists m, _, _. split; [exact H|]. intros _.
      exists (c ++ c1 ++ [ins op' f' (MEM_STACK + off2) (r_addr re) rhs']), (off2 + 1), K3.
      split; [cbn [CompGen.gexp]; rewrite G, Sh, G1, Go; reflexivity|].
      rewrite !after_after, <- ?app_assoc. reflexivity.
  Qed.

  Lemma pick_call (q : bool) e l n :
    call_fn text fns cc (expr n) (if q then "min" else "max")%string (flat e :: map flat l) =
    match l with
    | [] => cerr
    | _ => let! out := new_addr in
           let! r := sub_with (expr n) (flat e) in let! a := get r in
           do! pick (expr n) (if q then OP_MIN else OP_MAX) out a (map flat l) in cret (at_addr out)
    end.
  Proof. destruct q, l; reflexivity. Qed.
  Lemma builtin_app f l n : is_in f builtin_names = false ->
    call_fn text fns cc (expr n) f l =
    match find_fn fns f with
      | Some g =>
        if cc && negb (fn_const g) then cerr
        else if (List.length (fn_args g) <? List.length l)%nat then cerr
        else
          let! refs := mapC (sub_with (expr n)) l in
          let! off := new_addr in
          do! copy_args (off + 1) refs in
          do! default_args (off + 1 + N.of_nat (List.length l)) (skipn (List.length l) (fn_args g)) in
          do! link_to f in
          do! emit OP_CALL 0 (2 ^ 32 - 1) (off - MEM_STACK) 0 in cret (at_addr off)
      | None => cunmod
      end.
  Proof.
    intros H. unfold call_fn.
    assert (Q : forall x, is_in x builtin_names = true -> String.eqb f x = false).
    { intros x Hx. destruct (String.eqb_spec f x) as [->|]; auto. congruence. }
    replace (is_in f ["min"; "max"]%string) with false
      by (unfold is_in, existsb; now rewrite (Q "min"%string eq_refl), (Q "max"%string eq_refl)).
    rewrite (Q "fail"%string eq_refl), (Q "assert"%string eq_refl), H. reflexivity.
  Qed.

  (** a name and arguments in parentheses *)
  Lemma expr_call x args rest n rk s r rest' s' : (rk < 0 \/ 7 <= rk)%Z ->
    expr n (NId x :: NSub args :: rest) None rk s = COk (r, rest') s' ->
    exists m out s1, call_fn text fns cc (expr m) x args s = COk out s1 /\ expr m rest (Some out) rk s1 = COk (r, rest') s'.
  Proof.
    intros Rk H. apply expr_node with (rank := 1%Z) in H; [|reflexivity|lia].
    destruct H as (m & out & rest1 & s1 & -> & H1 & H). cbn [one_node] in H1. ok2 H1.
    apply expr_node with (rank := 4%Z) in H; [|reflexivity|lia].
    destruct H as (m1 & out & rest2 & s2 & -> & H1 & H). cbn [one_node] in H1.
    destruct (find_variable globals s x) as [v|]; [discriminate H1|].
    destruct (is_function fns x); [|discriminate H1]. cbn [r_func] in H1.
    apply cbind_ok in H1. destruct H1 as (o & s3 & H1 & H2). unfold cret in H2. ok2 H2. eauto.
  Qed.

  Lemma parses_all e : parses e.
  Proof.
    induction e as [v|x|e IH|e IH|o a b IHa IHb|e IH|q a l IHa IHl|f l IHl] using exp_ind2.
    5: now apply parses_bin.
    all: intros W n rest rk cd off V fs K L r rest' s' Hf Hs H.
    - (* Lit *)
      cbn [flat app] in H. apply expr_node with (rank := 0%Z) in H; [|reflexivity|destruct Hf; cbn in *; lia].
      destruct H as (m & out & rest1 & s1 & -> & H1 & H). cbn [one_node] in H1.
      unfold cbind in H1. rewrite get_const_state in H1. unfold cret in H1. ok2 H1.
      exists m, (mk_vref true (fst (kaddr (val_of v) K)) None None), (state cd off V fs (snd (kaddr (val_of v) K)) L).
      split; [exact H|]. intros _. exists [], off, (snd (kaddr (val_of v) K)). rewrite after_nil. split; auto.
      cbn [CompGen.gexp r_addr]. destruct (kaddr (val_of v) K); reflexivity.
    - (* Var *)
      cbn [flat app] in H. apply expr_node with (rank := 1%Z) in H; [|reflexivity|destruct Hf; cbn in *; lia].
      destruct H as (m & out & rest1 & s1 & -> & H1 & H). cbn [one_node] in H1. rewrite find_state in H1.
      ok2 H1. eexists m, _, _. split; [exact H|]. intros Ck. exists [], off, K. rewrite after_nil. split; auto.
      cbn [CompGen.gexp]. destruct (lookup_var x (scp V fs)) as [w|] eqn:E; [reflexivity|].
      destruct (is_function fns x); discriminate Ck.
    - (* Not *)
      cbn [customary unmixed proper] in W. repeat rewrite andb_true_iff in W. destruct W as (((W1 & Wl) & W2) & W3).
      cbn [flat app] in H. apply parses_unary in H; auto;
        [ | now left | rewrite W1, W2, W3; reflexivity | destruct Hf as [|[? ?]]; cbn in *; lia ].
      destruct H as (n' & re & s1 & E & c & a & off1 & K1 & G & Ea & ->). exists n', re, (after cd (c ++ [ins OP_NOT 0 (MEM_STACK + off1) a 0]) (off1 + 1) V fs K1 L).
      split; [exact E|]. intros _. eexists _, _, _. split; [cbn [CompGen.gexp]; rewrite G, Ea; reflexivity|reflexivity].
    - (* Flip *)
      cbn [customary unmixed proper] in W. repeat rewrite andb_true_iff in W. destruct W as (((W1 & Wl) & W2) & W3).
      cbn [flat app] in H. apply parses_unary in H; auto;
        [ | now right; left | rewrite W1, W2, W3; reflexivity | destruct Hf as [|[? ?]]; cbn in *; lia ].
      destruct H as (n' & re & s1 & E & c & a & off1 & K1 & G & Ea & ->). exists n', re, (after cd (c ++ [ins OP_NOT FLAG_BITWISE (MEM_STACK + off1) a 0]) (off1 + 1) V fs K1 L).
      split; [exact E|]. intros _. eexists _, _, _. split; [cbn [CompGen.gexp]; rewrite G, Ea; reflexivity|reflexivity].
    - (* Paren *)
      cbn [flat app] in H. apply expr_node with (rank := 4%Z) in H; [|reflexivity|destruct Hf as [|[? ?]]; cbn in *; lia].
      destruct H as (m & out & rest1 & s1 & -> & H1 & H). cbn [one_node] in H1.
      apply cbind_ok in H1. destruct H1 as (o & s2 & H1 & H2). unfold cret in H2. ok2 H2.
      apply parses_sub in H1; auto. destruct H1 as (Ck & c & off1 & K1 & G & ->).
      eexists m, _, _. split; [exact H|]. intros _. exists c, off1, K1. auto.
    - (* Pick *)
      cbn [customary unmixed proper] in W. repeat rewrite andb_true_iff in W. destruct W as (((W1 & W1l) & W2 & W2l) & W3 & W3l).
      cbn [flat app] in H. apply expr_call in H; [|destruct Hf as [|[? ?]]; cbn in *; lia].
      destruct H as (m & out & s1 & H1 & H). rewrite pick_call in H1. destruct l as [|e2 l]; [discriminate|].
      apply cbind_ok in H1. destruct H1 as (oa & s2 & H2 & H1). rewrite new_addr_state in H2. ok1 H2.
      apply cbind_ok in H1. destruct H1 as (r1 & s2 & H2 & H1).
      apply parses_sub in H2; [|assumption|now rewrite W1, W2, W3]. destruct H2 as (Ck & c & off1 & K1 & G & ->).
      apply cbind_ok in H1. destruct H1 as (a1 & s3 & H3 & H1). apply get_ok in H3. destruct H3 as (_ & -> & ->).
      apply cbind_ok in H1. destruct H1 as (u & s3 & H3 & H1). unfold after in H3.
      apply parses_pick in H3; [|assumption|now rewrite W1l, W2l, W3l]. destruct H3 as (c2 & off2 & K2 & G2 & ->).
      unfold cret in H1. ok1 H1.
      eexists m, _, _. split; [exact H|]. intros _. eexists _, _, _. split; [cbn [CompGen.gexp]; rewrite G, G2; reflexivity|].
      rewrite after_after. reflexivity.
    - (* Call *)
      cbn [customary unmixed proper] in W. repeat rewrite andb_true_iff in W. destruct W as ((W1 & W2) & Wb & W3). apply negb_true_iff in Wb.
      cbn [flat app] in H. apply expr_call in H; [|destruct Hf as [|[? ?]]; cbn in *; lia].
      destruct H as (m & out & s1 & H1 & H). rewrite builtin_app in H1 by assumption.
      destruct (find_fn fns f) as [g|] eqn:Fg; [|discriminate H1]. destruct (cc && negb (fn_const g)); [discriminate H1|].
      rewrite map_length in H1. destruct (List.length (fn_args g) <? List.length l)%nat eqn:Ln; [discriminate H1|].
      apply cbind_ok in H1. destruct H1 as (rs & s2 & H2 & H1).
      apply parses_list in H2; [|assumption|now rewrite W1, W2, W3]. destruct H2 as (F & Lr & c & off1 & K1 & G & ->). unfold after in H1.
      apply cbind_ok in H1. destruct H1 as (oa & s2 & H2 & H1). rewrite new_addr_state in H2. ok1 H2.
      apply cbind_ok in H1. destruct H1 as (u & s2 & H2 & H1). apply copy_args_state in H2. subst s2. unfold after in H1.
      apply cbind_ok in H1. destruct H1 as (u2 & s2 & H2 & H1). apply default_args_state in H2. subst s2.
      destruct (gdefaults (MEM_STACK + off1 + 1 + N.of_nat (List.length l)) (skipn (List.length l) (fn_args g)) K1) as [c3 K2] eqn:Gd. cbn [fst snd] in H1.
      unfold cbind, link_to, emit, cret in H1. cbn [c_code c_frames c_consts c_links after state] in H1. ok1 H1.
      eexists m, _, _. split; [exact H|]. intros _. eexists _, _, _. split; [cbn [CompGen.gexp]; rewrite Fg, Ln, G, Gd; reflexivity|].
      unfold after, state. cbn [map app fst links_at].
      replace (MEM_STACK + off1 - MEM_STACK) with off1 by lia.
      f_equal; rewrite ?map_app, ?links_at_app, ?app_length, ?map_length, ?app_length, ?map_length, <- ?app_assoc; cbn [map app fst links_at]; auto.
  Qed.
End PARSE.
