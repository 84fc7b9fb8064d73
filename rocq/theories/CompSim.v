(** The code of a program does what the program means. *)
Require Import List Arith NArith ZArith Bool String Lia.
From Verif Require Import BytesLib OrdLib VarModel InstrModel EngineModel EngineProofs CompModel CompSpec CompGen CompParse CompTree CompLink CompVm CompRun CompStatic.
Import List ListNotations.
Open Scope N_scope.

Definition CAP := 786432.
Lemma pair_inv {A B} (a a2 : A) (b b2 : B) : (a, b) = (a2, b2) -> a = a2 /\ b = b2. Proof. intros H. split; congruence. Qed.
Lemma STK : MEM_STATIC = MEM_STACK + 1073741824. Proof. reflexivity. Qed.
Lemma STS : STACK_SIZE = 1073741824. Proof. reflexivity. Qed.
Lemma W64 : 2 ^ 64 = 18446744073709551616. Proof. reflexivity. Qed.
Lemma EXM : MEM_EXTERN < MEM_STACK. Proof. reflexivity. Qed.
Lemma MSS : MEM_STACK < 1073741824. Proof. reflexivity. Qed.

Fixpoint argvals (l : list (ident * option value)) (vs : list value) : list value :=
  match l with
  | [] => []
  | (_, dflt) :: l => (match vs with v :: _ => v | [] => match dflt with Some v => v | None => Null end end) :: argvals l (tl vs)
  end.
Definition dflt_of (a : ident * option value) : value := match snd a with Some v => v | None => Null end.
Lemma argvals_eq l : forall vs, (List.length vs <= List.length l)%nat -> argvals l vs = vs ++ map dflt_of (skipn (List.length vs) l).
Proof.
  induction l as [|[x o] l IH]; intros [|v vs] H; cbn [argvals List.length skipn map app tl] in *; auto; try lia.
  - f_equal; auto. rewrite IH by (cbn; lia). reflexivity.
  - f_equal. apply IH. lia.
Qed.
Lemma update_flags fl o : updatable o = true -> op_flags fl (sym o ++ "=") (code_of o) = op_flags fl (sym o) (code_of o).
Proof. destruct o; intros H; try discriminate H; reflexivity. Qed.
Lemma updatable_shift o : updatable o = true -> is_shift o = false. Proof. destruct o; auto; discriminate. Qed.
Lemma updatable_closed c o v w : updatable o = true -> binary_op c o v w <> Open.
Proof.
  destruct o; intros H; try discriminate H; destruct v, w; cbn [binary_op]; try discriminate;
    repeat match goal with |- context [if ?b then _ else _] => destruct b end; discriminate.
Qed.
Lemma find_both l f : find_fn (map fn_of l) f = option_map fn_of (List.find (fun g => String.eqb (sf_name g) f) l).
Proof.
  induction l as [|g l IH]; [reflexivity|]. unfold find_fn in *. cbn [map List.find fn_of fn_name option_map]. rewrite IH. 
  destruct (String.eqb (sf_name g) f); reflexivity.
Qed.

Section SIM.
  Variable bk : backend.
  Variable x : ext.
  Variable rc : bytes -> bytes -> N -> M unit.
  Variable rd : addr -> bytes -> N -> M unit.
  Variable fl : flags.
  Variable text : list node -> bytes.
  Variable p : prog.
  Variable G0 : env_t.
  Variable C : list ains.
  Variable MM : list (ident * N).
  Variable KF : list val.
  Notation fns := (map fn_of (sp_fns p)).
  Notation gexp := (CompGen.gexp fl fns).
  Notation gstmt := (CompGen.gstmt fl text fns).
  Notation gstmts := (CompGen.gstmts gstmt).
  Notation eval := (CompSpec.eval (fl_catch fl) p).
  Notation exec := (CompSpec.exec (fl_catch fl) p).
  Notation call := (CompSpec.call (fl_catch fl) p).
  Notation body := (CompSpec.body (fl_catch fl) p).
  Notation loop := (CompSpec.loop (fl_catch fl) p).
  Notation goes := (CompRun.goes bk x rc rd).
  Notation fails := (CompRun.fails bk x rc rd).
  Notation shows := (CompVm.shows bk x rc rd).
  Notation wfG := (CompStatic.wfG KF).
  Notation good := (CompStatic.good KF).
  Hypothesis LK : len KF < MEM_EXTERN.
  Hypothesis Knil : nth_error KF 0 = Some VNil.
  Hypothesis LC : len C <= 524288.
  Hypothesis Nargs : forall f, In f (sp_fns p) -> len (sf_args f) < 262144.
  Hypothesis Res : Forall (fun i : ains => forall f, snd i = Some f -> lookup_var f MM <> None) C.
  Hypothesis HG0 : Forall2 (glob_rel KF) G0 (CompSpec.globals p).
  Hypothesis HF : forall f, In f (sp_fns p) -> exists pre c post K1 K2,
      C = pre ++ c ++ post /\ gfn fl text fns G0 f K1 (List.length pre) = Some (c, K2) /\
      grows K2 KF /\ lookup_var (sf_name f) MM = Some (N.of_nat (List.length pre)).
  Hypothesis HP : forall f, In f (sp_fns p) -> exists K, plain_func K f = true.

  Lemma K1 : 1 <= len KF.
  Proof. destruct KF; [discriminate|]. rewrite len_cons. lia. Qed.

  Lemma wfm K0 G off off' : off <= off' -> wfG K0 G off -> wfG K0 G off'.
  Proof. intros L W. eapply wfG_mono; eauto using K1. Qed.
  Lemma lgood K0 G off off' a : wfG K0 G off -> 1 <= off -> off <= off' -> locs KF G off off' a -> good off' a.
  Proof. intros. eapply locs_good; eauto using K1. Qed.
  (** *** Code *)
  Definition within (pos : nat) (c : list ains) : Prop := exists pre post, C = pre ++ c ++ post /\ List.length pre = pos.
  Lemma within_app pos a b : within pos (a ++ b) -> within pos a /\ within (pos + List.length a) b.
  Proof.
    intros (pre & post & E & L). split; [exists pre, (b ++ post)|exists (pre ++ a), post]; rewrite E, <- ?app_assoc; split; auto.
    rewrite app_length. lia.
  Qed.
  Lemma within_cons pos i b : within pos (i :: b) -> nth_error C pos = Some i /\ within (pos + 1) b.
  Proof.
    intros H. change (i :: b) with ([i] ++ b) in H. pose proof H as H'. apply within_app in H'. split; [|apply H'].
    destruct H as (pre & post & -> & <-). rewrite nth_error_app2, Nat.sub_diag; auto.
  Qed.
  Lemma within_len pos c : within pos c -> N.of_nat pos + len c <= 524288.
  Proof. intros (pre & post & E & <-). rewrite E in LC. rewrite len_eq. lens. lia. Qed.

  Definition inv (s : st) : Prop :=
    s_code s = map (linked MM) C /\ s_init s = true /\ 1 <= s_version s /\ consts KF s /\ tidy s.
  Definition room (d : nat) (sp : N) (fs : list (N * N)) : Prop :=
    (List.length fs + 1 + d = 1000)%nat /\ sp + (N.of_nat d + 1) * 1048576 <= 1073741824 /\
    match fs with [] => True | (ip, _) :: _ => ip + 1 < 2 ^ 64 end.
  Definition at_ (s : st) (pos : nat) (sp : N) (fs : list (N * N)) : Prop := s_frames s = (N.of_nat pos, sp) :: fs.
  Definition kept (lim : N) (s s' : st) : Prop :=
    aside s' = aside s /\ tidy s' /\ forall b, b < lim -> cell s' (LMem b) = cell s (LMem b).
  Definition vrel (s : st) (sp : N) (g : ident * variable) (e : ident * (bool * value)) : Prop :=
    fst g = fst e /\ v_isconst (snd g) = fst (snd e) /\ small (snd (snd e)) = true /\ holds s (phys sp (v_addr (snd g))) (val_of (snd (snd e))).
  Definition vals (s : st) (sp : N) (G : env_t) (r : env) : Prop := Forall2 (vrel s sp) G r.

  Lemma kept_refl lim s : tidy s -> kept lim s s. Proof. intros T. split; [|split]; auto. Qed.
  Lemma kept_mono lim lim' s s' : lim' <= lim -> kept lim s s' -> kept lim' s s'.
  Proof. intros L (A & B & D). split; [|split]; auto. intros b Hb. apply D. lia. Qed.
  Lemma kept_trans lim s s1 s2 : kept lim s s1 -> kept lim s1 s2 -> kept lim s s2.
  Proof. intros (A & B & D) (A' & B' & D'). split; [congruence|]. split; auto. intros b Hb. rewrite D'; auto. Qed.
  Lemma holds_kept lim s s' q v : kept lim s s' -> q < lim -> holds s q v -> holds s' q v.
  Proof. intros (_ & _ & D) L (o & H & R). exists o. rewrite D; auto. Qed.
  Lemma inv_kept lim s s' : inv s -> kept lim s s' -> MEM_STACK <= lim -> inv s'.
  Proof.
    intros (I1 & I2 & I3 & [I4 I5] & I6) Kp L. pose proof Kp as (A & B & D). unfold aside in A.
    assert (A1 : s_code s' = s_code s) by congruence. assert (A2 : s_init s' = s_init s) by congruence.
    assert (A3 : s_version s' = s_version s) by congruence. split; [congruence|]. split; [congruence|]. split; [lia|]. split; [|auto].
    split; auto. intros n v Hn. eapply holds_kept; [exact Kp| |auto]. assert (n < List.length KF)%nat by (apply nth_error_Some; congruence).
    pose proof EXM. Local Transparent len. unfold len in LK. lia.
  Qed.
  Local Opaque len.
  Lemma vals_kept K0 G off lim s s' sp r : wfG K0 G off -> kept lim s s' -> MEM_STACK + sp + off <= lim -> vals s sp G r -> vals s' sp G r.
  Proof.
    intros [W _] Kp L V. induction V as [|g e G r (V1 & V2 & V3 & V4) V IH]; [constructor|]. inversion_clear W as [|? ? Hg Hr].
    constructor; [|now apply IH]. split; [|split; [|split]]; auto. eapply holds_kept; [exact Kp| |exact V4]. unfold phys. pose proof EXM.
    destruct Hg as [[Hg _]|[Hg _]]; destruct (N.ltb_spec (v_addr (snd g)) MEM_STACK); lia.
  Qed.
  Lemma kept_wrote lim s q v s' : wrote s q v s' -> vals_of v = true -> tidy s -> lim <= q -> kept lim s s'.
  Proof.
    intros W Hv T L. split; [apply W|]. split; [eapply tidy_wrote; eauto|]. intros b Hb. apply W. lia.
  Qed.
  Lemma phys_stack sp a : MEM_STACK <= a -> phys sp a = a + sp.
  Proof. intros H. unfold phys. apply N.ltb_ge in H. now rewrite H. Qed.
  Lemma phys_const sp a : a < MEM_STACK -> phys sp a = a.
  Proof. intros H. unfold phys. apply N.ltb_lt in H. now rewrite H. Qed.
  Lemma phys_lt sp off a : good off a -> phys sp a < MEM_STACK + sp + off.
  Proof. pose proof EXM. intros [H1|H1]; [rewrite phys_const by lia; lia|rewrite phys_stack by lia; lia]. Qed.
  Lemma room_sp d sp fs : room d sp fs -> sp + 1048576 <= 1073741824. Proof. intros (_ & H & _). lia. Qed.
  Lemma good_addr d sp fs off a : room d sp fs -> off <= 1048576 -> good off a -> addr_ok sp a.
  Proof. intros R L H. apply room_sp in R. pose proof EXM. pose proof STK. destruct H as [H|H]; [left; lia|right; lia]. Qed.
  Lemma stack_addr d sp fs k : room d sp fs -> k < 1048576 -> addr_ok sp (MEM_STACK + k).
  Proof. intros R L. apply room_sp in R. pose proof STK. right. lia. Qed.
  Lemma stack_place d sp fs k s : room d sp fs -> k < 1048576 -> tidy s -> place true s (phys sp (MEM_STACK + k)).
  Proof. intros R L T. apply room_sp in R. pose proof STK. rewrite phys_stack by lia. split; auto. lia. Qed.
  Lemma const_holds s v K a K' : inv s -> vals_of v = true -> kaddr v K = (a, K') -> grows K' KF -> holds s a v.
  Proof.
    intros (_ & _ & _ & [_ I] & _) Hv E Gr. apply kaddr_nth in E; auto. eapply grows_nth in E; [|exact Gr]. specialize (I _ _ E). now rewrite N2Nat.id in I.
  Qed.
  Lemma code_in s pos i c : inv s -> within pos (i :: c) -> nth_error (s_code s) (N.to_nat (N.of_nat pos)) = Some (linked MM i).
  Proof. intros I W. apply within_cons in W. destruct W as [W _]. destruct I as [-> _]. rewrite Nat2N.id. now apply map_nth_error. Qed.
  Lemma pos_ok pos i c : within pos (i :: c) -> N.of_nat pos + 1 < 2 ^ 64.
  Proof. intros W. apply within_len in W. lens. rewrite W64. lia. Qed.
  Lemma vals_lookup s sp G r y : vals s sp G r ->
    match lookup_var y G with
    | Some v => exists w, lookup_var y r = Some (v_isconst v, w) /\ small w = true /\ holds s (phys sp (v_addr v)) (val_of w)
    | None => lookup_var y r = None
    end.
  Proof.
    induction 1 as [|[z u] [z' [q w]] G r (V1 & V2 & V3 & V4) V IH]; [reflexivity|]. cbn [fst snd] in *. subst z'. cbn [lookup_var].
    destruct (String.eqb y z); [|exact IH]. exists w. subst q. auto.
  Qed.
  Lemma vals_len s sp G r : vals s sp G r -> List.length G = List.length r. Proof. induction 1; cbn [List.length]; auto. Qed.
  Lemma vals_assign K0 off s s' sp G r y v w : wfG K0 G off -> vals s sp G r -> lookup_var y G = Some v -> MEM_STACK <= v_addr v ->
    wrote s (phys sp (v_addr v)) (val_of w) s' -> small w = true -> vals s' sp G (assign y w r).
  Proof.
    intros [Wf Nd] V E L Wr Sw. revert E Wf Nd. induction V as [|[z u] [z' [q t]] G r (V1 & V2 & V3 & V4) V IH]; intros E Wf Nd; [discriminate|].
    cbn [fst snd] in *. subst z'. cbn [lookup_var] in E. cbn [assign]. inversion_clear Wf as [|? ? Hg Hr]. cbn [snd] in Hg.
    unfold onstack in Nd. cbn [addrs map snd filter] in Nd. rewrite (phys_stack _ _ L) in *. pose proof EXM.
    assert (Kp : forall g, In g G -> v_addr (snd g) <> v_addr v -> forall e, vrel s sp g e -> vrel s' sp g e).
    { intros g Ig Ne e (A1 & A2 & A3 & A4). split; [|split; [|split]]; auto. eapply holds_but; [apply Wr| |exact A4].
      unfold phys. destruct (N.ltb_spec (v_addr (snd g)) MEM_STACK); lia. }
    destruct (String.eqb y z).
    - injection E as ->. apply N.leb_le in L. rewrite L in Nd. inversion_clear Nd as [|? ? Ni Nd']. constructor.
      + split; [|split; [|split]]; auto. cbn [snd]. apply N.leb_le in L. rewrite phys_stack by auto. now apply holds_wrote in Wr.
      + clear -V Kp Ni L. assert (Kp' : forall g, In g G -> forall e, vrel s sp g e -> vrel s' sp g e).
        { intros g Ig. apply Kp; auto. intros Ea. apply Ni. apply filter_In. rewrite <- Ea. split; [now apply in_map with (f := fun g => v_addr (snd g))|now rewrite Ea]. }
        clear Kp Ni. induction V; constructor; [apply Kp'; auto; now left|]. apply IHV. intros g Ig. apply Kp'. now right.
    - constructor.
      + split; [|split; [|split]]; auto. cbn [snd] in *. eapply holds_but; [apply Wr| |exact V4].
        unfold phys. destruct (N.ltb_spec (v_addr u) MEM_STACK) as [|Lu]; [lia|]. intros Ea. assert (Ea2 : v_addr u = v_addr v) by lia.
        apply N.leb_le in Lu. rewrite Lu in Nd. inversion_clear Nd as [|? ? Ni Nd']. apply Ni. apply filter_In. split; [|auto].
        apply lookup_In in E. rewrite Ea2. apply in_map_iff. exists (y, v). auto.
      + apply IH; auto. destruct (MEM_STACK <=? v_addr u); [now inversion_clear Nd|exact Nd].
  Qed.

  (** *** Instructions in place *)
  Lemma do_copy d s pos dst a c v fs sp (Q : st -> Prop) :
    within pos (ins OP_COPY 0 dst a 0 :: c) -> inv s -> at_ s pos sp fs -> room d sp fs -> addr_ok sp dst -> addr_ok sp a -> phys sp dst <> phys sp a ->
    MEM_STACK <= phys sp dst < MEM_STATIC -> holds s (phys sp a) v -> vals_of v = true ->
    (forall s', wrote s (phys sp dst) v s' -> at_ s' (pos + 1) sp fs -> Q s') -> goes s Q.
  Proof.
    intros W I A R Ad Aa Ne Hd Hv Vv H. eapply acts_goes; [exact A|eapply code_in; eauto| |].
    - eapply copy_acts; eauto; [eapply pos_ok; eauto|apply I].
    - intros s' Wr F. apply H; auto. unfold at_. rewrite F. do 2 f_equal. lia.
  Qed.
  Lemma do_shows s pos i c ok q r fs sp (Q : st -> Prop) :
    within pos ((i, None) :: c) -> inv s -> at_ s pos sp fs -> shows ok i s q r ->
    (forall v s', r = Val v -> ok = true -> small v = true -> wrote s q (val_of v) s' -> at_ s' (pos + 1) sp fs -> Q s') ->
    match r with Val v => if ok then goes s Q else fails s | Fail => fails s | Open => True end.
  Proof.
    intros W I A Sh H. destruct r as [v| |]; auto.
    - destruct Sh as [Sm Ac]. destruct ok.
      + eapply acts_goes; [exact A|eapply code_in; eauto|exact Ac|]. intros s' Wr F. eapply H; eauto. unfold at_. rewrite F. do 2 f_equal. lia.
      + eapply acts_fails; [exact A|eapply code_in; eauto|exact Ac].
    - eapply acts_fails; [exact A|eapply code_in; eauto|exact Sh].
  Qed.
  Lemma do_jump s pos t c fs sp : within pos (ins OP_JUMP 0 (N.of_nat t) 0 0 :: c) -> inv s -> at_ s pos sp fs ->
    goes s (fun s' => at_ s' t sp fs /\ forall lim, kept lim s s').
  Proof.
    intros W I A. eapply step_goes; [exact A|eapply code_in; eauto| |].
    - apply (exec_jump bk x rc rd s (N.of_nat pos) sp fs A).
    - split; [reflexivity|]. intros lim. split; [reflexivity|]. split; [apply I|reflexivity].
  Qed.
  Lemma do_jumpif s pos (on : bool) t a c fs sp v d off : within pos (ins (if on then OP_JUMPI else OP_JUMPN) 0 t a 0 :: c) -> inv s -> at_ s pos sp fs ->
    room d sp fs -> good off a -> off <= 1048576 -> holds s (phys sp a) (val_of v) ->
    goes s (fun s' => s_frames s' = (if Bool.eqb (truth v) on then t else N.of_nat (pos + 1), sp) :: fs /\ forall lim, kept lim s s').
  Proof.
    intros W I A R Ga Lo Hv. eapply step_goes; [exact A|eapply code_in; eauto| |].
    - apply (exec_jumpif bk x rc rd s (N.of_nat pos) sp fs A (pos_ok _ _ _ W) on t a v); auto. eapply good_addr; eauto.
    - split; [|intros lim; split; [reflexivity|]; split; [apply I|reflexivity]].
      replace (N.of_nat (pos + 1)) with (N.of_nat pos + 1) by lia. reflexivity.
  Qed.
  Definition back (s : st) (sp : N) (fs : list (N * N)) (v : value) (s' : st) : Prop :=
    s_frames s' = bump fs /\ kept (MEM_STACK + sp) s s' /\ holds s' (MEM_STACK + sp) (val_of v) /\ small v = true.
  Lemma do_ret s pos c fs sp v d : within pos (ins OP_RET 0 0 0 0 :: c) -> inv s -> at_ s pos sp fs -> room d sp fs ->
    holds s (MEM_STACK + sp) (val_of v) -> small v = true -> goes s (back s sp fs v).
  Proof.
    intros W I A R Hv Sv. pose proof (room_sp _ _ _ R) as Rs. pose proof STK.
    destruct (exec_ret bk x rc rd s (N.of_nat pos) sp fs A) as [(s' & E & A1 & A2 & A3 & A4)|(s' & E & O)].
    - apply I.
    - lia.
    - apply R.
    - eapply step_goes; [exact A|eapply code_in; eauto|exact E|]. split; [exact A2|].
      assert (Kp : kept (MEM_STACK + sp + 1) s s').
      { split; [exact A1|]. split; [exact A3|]. intros b Hb. rewrite A4. replace (MEM_STACK + sp + 1 <=? b) with false by (symmetry; apply N.leb_gt; lia). reflexivity. }
      split; [eapply kept_mono; [|exact Kp]; lia|]. split; auto. eapply holds_kept; [exact Kp| |exact Hv]. lia.
    - eapply step_over; [exact A|eapply code_in; eauto|exact E|exact O].
  Qed.

  (** *** What is to be shown *)
  Definition Pe (n : nat) : Prop := forall d r e K0 G off K c a off' K' pos sp fs s,
    gexp G e off K = Some (c, a, off', K') -> grows K' KF -> within pos c -> wfG K0 G off -> 1 <= off -> off + len c <= CAP -> proper e = true ->
    inv s -> at_ s pos sp fs -> room d sp fs -> vals s sp G r ->
    match eval n d r e with
    | Val v => goes s (fun s' => at_ s' (pos + List.length c) sp fs /\ kept (MEM_STACK + sp + off) s s' /\ holds s' (phys sp a) (val_of v) /\ small v = true)
    | Fail => fails s
    | Open => True
    end.
  Definition outcome {A} (s : st) (o : CompSpec.res A) (Q : A -> st -> Prop) : Prop :=
    match o with Val v => goes s (Q v) | Fail => fails s | Open => True end.
  Definition flows (s : st) (sp : N) (fs : list (N * N)) (pos : nat) (G : env_t) (f : flow) (s' : st) : Prop :=
    match f with
    | Go r => at_ s' pos sp fs /\ kept (MEM_STACK + sp + 1) s s' /\ vals s' sp G r
    | Back v => back s sp fs v s'
    end.
  Definition ends_as (s : st) (sp : N) (fs : list (N * N)) (pos : nat) (G : env_t) (o : CompSpec.res flow) : Prop :=
    outcome s o (flows s sp fs pos G).
  Definition Ps (n : nat) : Prop := forall d r st K0 G off K c D off' K' pos sp fs s,
    gstmt st G off K pos = Some (c, D, off', K') -> grows K' KF -> within pos c -> wfG K0 G off -> 1 <= off -> off + len c <= CAP -> plain K0 st = true ->
    inv s -> at_ s pos sp fs -> room d sp fs -> vals s sp G r -> holds s (MEM_STACK + sp) VNil ->
    ends_as s sp fs (pos + List.length c) (D ++ G) (exec n d r st).
  Definition Pl (n : nat) : Prop := forall d r cd post st K0 G off K pos c1 a off1 K1 c2 off2 K2 c3 off3 K3 sp fs s,
    gexp G cd off K = Some (c1, a, off1, K1) -> gstmt st G off1 K1 (pos + List.length c1 + 1) = Some (c2, [], off2, K2) ->
    gstmts post G off2 K2 (pos + List.length c1 + 1 + List.length c2) = Some (c3, [], off3, K3) -> grows K3 KF ->
    let pend := (pos + List.length c1 + 1 + List.length c2 + List.length c3 + 1)%nat in
    let c := c1 ++ ins OP_JUMPN 0 (N.of_nat pend) a 0 :: c2 ++ c3 ++ [ins OP_JUMP 0 (N.of_nat pos) 0 0] in
    within pos c -> wfG K0 G off -> 1 <= off -> off + len c <= CAP -> proper cd = true -> plain K0 st = true -> forallb (plain K0) post = true ->
    inv s -> at_ s pos sp fs -> room d sp fs -> vals s sp G r -> holds s (MEM_STACK + sp) VNil ->
    ends_as s sp fs pend G (loop n d r cd post st).
  Definition Pb (n : nat) : Prop := forall d g vs pos sp fs s,
    In g (sp_fns p) -> lookup_var (sf_name g) MM = Some (N.of_nat pos) -> Forall (fun v => small v = true) (argvals (sf_args g) vs) ->
    (forall i v, nth_error (argvals (sf_args g) vs) i = Some v -> holds s (MEM_STACK + sp + 1 + N.of_nat i) (val_of v)) ->
    inv s -> at_ s pos sp fs -> room d sp fs ->
    match body n d g vs with
    | Val v => goes s (back s sp fs v)
    | Fail => fails s
    | Open => True
    end.

  (** *** Expressions *)
  Lemma each_sim n d r sp fs : Pe n -> forall l K0 G off K c rs off' K' pos s,
    gexps (gexp G) l off K = Some (c, rs, off', K') -> grows K' KF -> within pos c -> wfG K0 G off -> 1 <= off -> off + len c <= CAP ->
    forallb proper l = true -> inv s -> at_ s pos sp fs -> room d sp fs -> vals s sp G r ->
    match each (fun e => eval n d r e) l with
    | Val vs => goes s (fun s' => at_ s' (pos + List.length c) sp fs /\ kept (MEM_STACK + sp + off) s s' /\
                                  Forall2 (fun a v => holds s' (phys sp a) (val_of v) /\ small v = true) rs vs)
    | Fail => fails s
    | Open => True
    end.
  Proof.
    intros IHe. induction l as [|e l IH]; intros K0 G off K c rs off' K' pos s H Gr W Wf Lo Cap Pr I A R V.
    - s4 H. cbn [each]. apply goes_now. rewrite Nat.add_0_r. split; auto. split; [apply kept_refl, I|constructor].
    - cbn [gexps] in H. destruct (gexp G e off K) as [[[[c1 a1] off1] K2]|] eqn:E; [|discriminate].
      destruct (gexps (gexp G) l off1 K2) as [[[[c2 r2] off2] K3]|] eqn:E2; [|discriminate]. s4 H.
      cbn [forallb] in Pr. apply andb_true_iff in Pr. destruct Pr as [P1 P2]. apply within_app in W. destruct W as [W1 W2]. lens.
      assert (Gr2 : grows K2 KF) by (eapply grows_trans; [eapply gexps_grows; [|exact E2]|exact Gr]; apply Forall_forall; intros; eapply gexp_grows; eauto).
      destruct (gexp_static fl fns KF LK K1 _ _ _ _ _ _ _ _ E Gr2) as (S1 & S2 & S3 & _).
      assert (G1 : good off1 a1) by (eapply lgood; eauto).
      assert (He := IHe d r e K0 G off K c1 a1 off1 K2 pos sp fs s E Gr2 W1 Wf Lo ltac:(lia) P1 I A R V). cbn [each].
      destruct (eval n d r e) as [v| |]; cbn [andthen]; auto.
      assert (Hl : forall s1, at_ s1 (pos + List.length c1) sp fs /\ kept (MEM_STACK + sp + off) s s1 /\ holds s1 (phys sp a1) (val_of v) /\ small v = true ->
        match each (fun e => eval n d r e) l with
        | Val vs => goes s1 (fun s' => at_ s' (pos + List.length (c1 ++ c2)) sp fs /\ kept (MEM_STACK + sp + off) s s' /\
                                  Forall2 (fun a v => holds s' (phys sp a) (val_of v) /\ small v = true) (a1 :: r2) (v :: vs))
        | Fail => fails s1
        | Open => True
        end).
      { intros s1 (B1 & B2 & B3 & B4).
        assert (Q := IH K0 G off1 K2 c2 r2 off2 K3 _ s1 E2 Gr W2 (wfm K0 G off off1 S1 Wf) ltac:(lia) ltac:(lia) P2
          ltac:(eapply inv_kept; [exact I|exact B2|lia]) B1 R ltac:(eapply vals_kept; [exact Wf|exact B2|lia|exact V])).
        destruct (each _ l) as [vs| |]; auto. eapply goes_weaken; [exact Q|]. intros s2 (D1 & D2 & D3).
        split; [rewrite app_length, Nat.add_assoc; exact D1|]. split; [eapply kept_trans; [exact B2|eapply kept_mono; [|exact D2]; lia]|].
        constructor; auto. split; auto. eapply holds_kept; [exact D2| |exact B3]. now apply phys_lt. }
      destruct (each _ l) as [vs| |]; cbn [andthen]; auto.
      + eapply goes_then; [exact He|exact Hl].
      + eapply goes_fails; [exact He|exact Hl].
  Qed.
  Lemma picks_sim n d r sp fs least doff : Pe n -> 1 <= doff -> doff < 1048576 -> forall l K0 G lhs off K c off' K' pos v s,
    gpicks (gexp G) (if least : bool then OP_MIN else OP_MAX) (MEM_STACK + doff) lhs l off K = Some (c, off', K') -> grows K' KF -> within pos c ->
    wfG K0 G doff -> doff < off -> off + len c <= CAP + 1 -> good off lhs ->
    forallb proper l = true -> inv s -> at_ s pos sp fs -> room d sp fs -> vals s sp G r -> holds s (phys sp lhs) (val_of v) -> small v = true ->
    match picks (fun e => eval n d r e) least v l with
    | Val u => goes s (fun s' => at_ s' (pos + List.length c) sp fs /\ kept (MEM_STACK + sp + doff) s s' /\
                                 holds s' (phys sp (match l with [] => lhs | _ => MEM_STACK + doff end)) (val_of u) /\ small u = true)
    | Fail => fails s
    | Open => True
    end.
  Proof.
    intros IHe Ld Ld2. induction l as [|e l IH]; intros K0 G lhs off K c off' K' pos v s H Gr W Wf Lo Cap Gl Pr I A R V Hv Sv.
    - s3 H. cbn [picks]. apply goes_now. rewrite Nat.add_0_r. split; auto. split; [apply kept_refl, I|auto].
    - cbn [gpicks] in H. destruct (gexp G e off K) as [[[[c1 a1] off1] K2]|] eqn:E; [|discriminate].
      destruct (gpicks (gexp G) _ _ (MEM_STACK + doff) l off1 K2) as [[[c2 off2] K3]|] eqn:E2; [|discriminate]. s3 H.
      cbn [forallb] in Pr. apply andb_true_iff in Pr. destruct Pr as [P1 P2]. apply within_app in W. destruct W as [W1 W2]. lens.
      assert (Gr2 : grows K2 KF) by (eapply grows_trans; [eapply gpicks_grows; [|exact E2]|exact Gr]; apply Forall_forall; intros; eapply gexp_grows; eauto).
      destruct (gexp_static fl fns KF LK K1 _ _ _ _ _ _ _ _ E Gr2) as (S1 & S2 & S3 & _).
      assert (Wo : wfG K0 G off) by (eapply wfm; [|exact Wf]; lia).
      assert (G1 : good off1 a1) by (eapply lgood; [exact Wo|lia|lia|exact S3]).
      assert (He := IHe d r e K0 G off K c1 a1 off1 K2 pos sp fs s E Gr2 W1 Wo ltac:(lia) ltac:(lia) P1 I A R V). cbn [picks].
      destruct (eval n d r e) as [w| |]; cbn [andthen]; auto. unfold CAP in *.
      set (P := match (andthen (pick_op least v w) (fun v => picks (fun e => eval n d r e) least v l)) with
        | Val u => fun s1 => goes s1 (fun s' => at_ s' (pos + List.length (c1 ++ ins (if least then OP_MIN else OP_MAX) 0 (MEM_STACK + doff) lhs a1 :: c2)) sp fs /\ kept (MEM_STACK + sp + doff) s s' /\
                                 holds s' (phys sp (MEM_STACK + doff)) (val_of u) /\ small u = true)
        | Fail => fun s1 => fails s1
        | Open => fun s1 => True
        end).
      assert (Hl : forall s1, at_ s1 (pos + List.length c1) sp fs /\ kept (MEM_STACK + sp + off) s s1 /\ holds s1 (phys sp a1) (val_of w) /\ small w = true -> P s1).
      { intros s1 (B1 & B2 & B3 & B4).
        assert (I1 : inv s1) by (eapply inv_kept; [exact I|exact B2|lia]).
        assert (Hv1 : holds s1 (phys sp lhs) (val_of v)) by (eapply holds_kept; [exact B2|now apply phys_lt|exact Hv]).
        assert (Sh : shows true (mk_instr (if least then OP_MIN else OP_MAX) 0 (MEM_STACK + doff) lhs a1 0) s1 (phys sp (MEM_STACK + doff)) (pick_op least v w)).
        { eapply pick_shows; eauto; try reflexivity.
          - eapply pos_ok; exact W2.
          - eapply stack_addr; eauto.
          - eapply good_addr; [exact R| |exact Gl]. lia.
          - eapply good_addr; [exact R| |exact G1]. lia.
          - eapply stack_place; eauto. apply I1. }
        pose proof W2 as W3. apply within_cons in W3. destruct W3 as [_ W3].
        pose (Q2 := match pick_op least v w with Val v' => fun s2 => wrote s1 (phys sp (MEM_STACK + doff)) (val_of v') s2 /\ at_ s2 (pos + List.length c1 + 1) sp fs /\ small v' = true | _ => fun _ => False end).
        assert (St := do_shows s1 _ _ _ true _ _ _ _ Q2 W2 I1 B1 Sh).
        unfold P. destruct (pick_op least v w) as [v'| |] eqn:Ep; cbn [andthen]; auto; [|apply St; intros; discriminate].
        assert (St' : goes s1 Q2) by (apply St; intros v2 s2 Ev _ Sm Wr At; injection Ev as <-; split; auto). clear St. subst Q2. cbn beta in St'.
        assert (Hs2 : forall s2, wrote s1 (phys sp (MEM_STACK + doff)) (val_of v') s2 /\ at_ s2 (pos + List.length c1 + 1) sp fs /\ small v' = true ->
          match picks (fun e => eval n d r e) least v' l with
          | Val u => goes s2 (fun s' => at_ s' (pos + List.length (c1 ++ ins (if least then OP_MIN else OP_MAX) 0 (MEM_STACK + doff) lhs a1 :: c2)) sp fs /\ kept (MEM_STACK + sp + doff) s s' /\
                                 holds s' (phys sp (MEM_STACK + doff)) (val_of u) /\ small u = true)
          | Fail => fails s2
          | Open => True
          end).
        { intros s2 (Wr & At & Sm). rewrite phys_stack in * by lia.
          assert (Kp : kept (MEM_STACK + sp + doff) s s2).
          { eapply kept_trans; [eapply kept_mono; [|exact B2]; lia|]. eapply kept_wrote; [exact Wr|apply vals_of_val|apply I1|lia]. }
          assert (Q := IH K0 G (MEM_STACK + doff) off1 K2 c2 off2 K3 _ v' s2 E2 Gr W3 Wf ltac:(lia) ltac:(lia) ltac:(right; lia) P2
            ltac:(eapply inv_kept; [exact I|exact Kp|lia]) At R ltac:(eapply vals_kept; [exact Wf|exact Kp|lia|exact V])).
          rewrite phys_stack in Q by lia. specialize (Q (holds_wrote _ _ _ _ Wr) Sm).
          destruct (picks _ least v' l) as [u| |]; auto. eapply goes_weaken; [exact Q|]. intros s3 (D1 & D2 & D3 & D4).
          split; [|split; [eapply kept_trans; [exact Kp|exact D2]|split; [|exact D4]]].
          - rewrite app_length. cbn [List.length]. replace (pos + (List.length c1 + S (List.length c2)))%nat with (pos + List.length c1 + 1 + List.length c2)%nat by lia. exact D1.
          - destruct l; rewrite phys_stack in D3 by lia; exact D3. }
        destruct (picks _ least v' l) as [u| |]; auto.
        - eapply goes_then; [exact St'|exact Hs2].
        - eapply goes_fails; [exact St'|exact Hs2]. }
      unfold P in Hl. destruct (andthen _ _) as [u| |]; auto.
      + eapply goes_then; [exact He|exact Hl].
      + eapply goes_fails; [exact He|exact Hl].
  Qed.
  (** arguments are put into the new frame *)
  Lemma copies_sim d sp fs : forall l vs k off pos s,
    within pos (gcopies (MEM_STACK + k) l) -> Forall (good off) l -> off <= k -> k + len l <= 1048576 -> inv s -> at_ s pos sp fs -> room d sp fs ->
    Forall2 (fun a v => holds s (phys sp a) (val_of v) /\ small v = true) l vs ->
    goes s (fun s' => at_ s' (pos + List.length (gcopies (MEM_STACK + k) l)) sp fs /\ kept (MEM_STACK + sp + k) s s' /\
                      forall i v, nth_error vs i = Some v -> holds s' (MEM_STACK + sp + k + N.of_nat i) (val_of v)).
  Proof.
    induction l as [|a l IH]; intros vs k off pos s W Gl Lo Lk I A R H.
    - inversion_clear H. apply goes_now. cbn [gcopies List.length]. rewrite Nat.add_0_r. split; auto. split; [apply kept_refl, I|]. intros [|i] v Hi; discriminate.
    - inversion H as [|? v ? vs' [Hv Sv] Hr]. subst. inversion_clear Gl as [|? ? Ga Gr]. cbn [gcopies] in *. lens.
      pose proof (room_sp _ _ _ R) as Rs. pose proof STK. pose proof EXM. pose proof (phys_lt sp _ _ Ga) as Lp.
      assert (Ne : (MEM_STACK + k =? a) = false) by (apply N.eqb_neq; destruct Ga; lia).
      unfold gcopy in *. rewrite Ne in *. cbn [app] in *. pose proof W as W'. apply within_cons in W'. destruct W' as [_ W2].
      assert (Ph : phys sp (MEM_STACK + k) = MEM_STACK + sp + k) by (rewrite phys_stack by lia; lia).
      eapply goes_then; [eapply (do_copy d) with (Q := fun s' => wrote s (phys sp (MEM_STACK + k)) (val_of v) s' /\ at_ s' (pos + 1) sp fs); eauto|].
      + eapply stack_addr; eauto. lia.
      + eapply good_addr; [exact R| |exact Ga]. lia.
      + lia.
      + lia.
      + apply vals_of_val.
      + intros s1 (Wr & A1). rewrite Ph in Wr.
        assert (Kp : kept (MEM_STACK + sp + k) s s1) by (eapply kept_wrote; [exact Wr|apply vals_of_val|apply I|lia]).
        assert (Q := IH vs' (k + 1) off (pos + 1)%nat s1). rewrite N.add_assoc in Q.
        assert (Hr1 : Forall2 (fun a v => holds s1 (phys sp a) (val_of v) /\ small v = true) l vs').
        { clear -Hr Gr Wr Lo LK LC Nargs Res HG0 HF HP Knil. induction Hr as [|b w l vs [Hb Sb] Hr IH]; [constructor|]. inversion_clear Gr as [|? ? Gb Gr']. constructor; [|now apply IH].
          split; auto. eapply holds_but; [apply Wr| |exact Hb]. pose proof (phys_lt sp _ _ Gb). lia. }
        specialize (Q W2 Gr ltac:(lia) ltac:(lia) ltac:(eapply inv_kept; [exact I|exact Kp|lia]) A1 R Hr1).
        eapply goes_weaken; [exact Q|]. intros s2 (B1 & B2 & B3).
        split; [cbn [List.length]; replace (pos + S (List.length (gcopies (MEM_STACK + k + 1) l)))%nat with (pos + 1 + List.length (gcopies (MEM_STACK + k + 1) l))%nat by lia; exact B1|].
        split; [eapply kept_trans; [exact Kp|eapply kept_mono; [|exact B2]; lia]|].
        intros [|i] u Hi; cbn [nth_error] in Hi.
        * injection Hi as <-. rewrite N.add_0_r. eapply holds_kept; [exact B2|lia|]. now apply holds_wrote in Wr.
        * replace (MEM_STACK + sp + k + N.of_nat (S i)) with (MEM_STACK + sp + (k + 1) + N.of_nat i) by lia. auto.
  Qed.
  Lemma defaults_sim d sp fs : forall l k K c K' pos s,
    gdefaults (MEM_STACK + k) (map (fun a => (fst a, option_map val_of (snd a))) l) K = (c, K') -> grows K' KF ->
    within pos c -> k + len l <= 1048576 -> inv s -> at_ s pos sp fs -> room d sp fs ->
    goes s (fun s' => at_ s' (pos + List.length c) sp fs /\ kept (MEM_STACK + sp + k) s s' /\
                      forall i v, nth_error (map dflt_of l) i = Some v -> holds s' (MEM_STACK + sp + k + N.of_nat i) (val_of v)).
  Proof.
    induction l as [|[y o] l IH]; intros k K c K' pos s H Gr W Lk I A R; cbn [gdefaults map fst snd] in H.
    - injection H as <- <-. apply goes_now. cbn [List.length]. rewrite Nat.add_0_r. split; auto. split; [apply kept_refl, I|]. intros [|i] v Hi; discriminate.
    - destruct (match option_map val_of o with Some v => kaddr v K | None => (0, K) end) as [a K2] eqn:Ea.
      destruct (gdefaults (MEM_STACK + k + 1) _ K2) as [c2 K3] eqn:E2. apply pair_inv in H. destruct H as [<- <-]. lens.
      assert (Gr2 : grows K2 KF) by (eapply grows_trans; [eapply gdefaults_grows; exact E2|exact Gr]).
      assert (Hv : holds s a (val_of (dflt_of (y, o))) /\ a < len KF).
      { unfold dflt_of. cbn [snd]. destruct o as [v|]; cbn [option_map] in Ea.
        - split; [eapply const_holds; [exact I|apply vals_of_val|exact Ea|exact Gr2]|eapply kaddr_lt; eauto].
        - injection Ea as <- <-. split; [|pose proof K1; lia]. destruct I as (_ & _ & _ & [_ I] & _). exact (I 0%nat VNil Knil). }
      destruct Hv as [Hv La]. pose proof (room_sp _ _ _ R) as Rs. pose proof STK. pose proof EXM.
      assert (Ph : phys sp (MEM_STACK + k) = MEM_STACK + sp + k) by (rewrite phys_stack by lia; lia).
      assert (Pa : phys sp a = a) by (apply phys_const; lia).
      pose proof W as W'. apply within_cons in W'. destruct W' as [_ W2].
      eapply goes_then; [eapply (do_copy d) with (v := val_of (dflt_of (y, o))) (Q := fun s' => wrote s (phys sp (MEM_STACK + k)) (val_of (dflt_of (y, o))) s' /\ at_ s' (pos + 1) sp fs);
        [exact W|exact I|exact A|exact R| | | | | | |auto]|].
      + eapply stack_addr; eauto. lia.
      + left. lia.
      + lia.
      + lia.
      + now rewrite Pa.
      + apply vals_of_val.
      + intros s1 (Wr & A1). rewrite Ph in Wr.
        assert (Kp : kept (MEM_STACK + sp + k) s s1) by (eapply kept_wrote; [exact Wr|apply vals_of_val|apply I|lia]).
        assert (Q := IH (k + 1) K2 c2 K3 (pos + 1)%nat s1). rewrite N.add_assoc in Q.
        specialize (Q E2 Gr W2 ltac:(lia) ltac:(eapply inv_kept; [exact I|exact Kp|lia]) A1 R).
        eapply goes_weaken; [exact Q|]. intros s2 (B1 & B2 & B3).
        split; [cbn [List.length]; replace (pos + S (List.length c2))%nat with (pos + 1 + List.length c2)%nat by lia; exact B1|].
        split; [eapply kept_trans; [exact Kp|eapply kept_mono; [|exact B2]; lia]|].
        intros [|i] u Hi; cbn [nth_error map] in Hi.
        * injection Hi as <-. rewrite N.add_0_r. eapply holds_kept; [exact B2|lia|]. now apply holds_wrote in Wr.
        * replace (MEM_STACK + sp + k + N.of_nat (S i)) with (MEM_STACK + sp + (k + 1) + N.of_nat i) by lia. auto.
  Qed.

  Lemma out_then {A B} s (o : CompSpec.res A) (k : A -> CompSpec.res B) (Q : A -> st -> Prop) (R : B -> st -> Prop) :
    outcome s o Q -> (forall v s', o = Val v -> Q v s' -> outcome s' (k v) R) -> outcome s (andthen o k) R.
  Proof.
    intros H H2. destruct o as [v| |]; cbn [andthen outcome] in *; auto. assert (H3 := fun s' => H2 v s' eq_refl). clear H2.
    destruct (k v) as [b| |]; cbn [outcome] in *; auto.
    - eapply goes_then; eauto.
    - eapply goes_fails; eauto.
  Qed.
  Lemma out_weaken {A} s (o : CompSpec.res A) (Q R : A -> st -> Prop) : outcome s o Q -> (forall v s', o = Val v -> Q v s' -> R v s') -> outcome s o R.
  Proof. intros H H2. destruct o; cbn [outcome] in *; auto. eapply goes_weaken; eauto. Qed.
  Lemma out_goes {A} s (o : CompSpec.res A) (Q : st -> Prop) (R : A -> st -> Prop) : goes s Q -> (forall s', Q s' -> outcome s' o R) -> outcome s o R.
  Proof.
    intros H H2. destruct o; cbn [outcome] in *; auto.
    - eapply goes_then; eauto.
    - eapply goes_fails; eauto.
  Qed.
  Lemma out_shows s pos i c q r fs sp (Q : value -> st -> Prop) :
    within pos ((i, None) :: c) -> inv s -> at_ s pos sp fs -> shows true i s q r ->
    (forall v s', r = Val v -> small v = true -> wrote s q (val_of v) s' -> at_ s' (pos + 1) sp fs -> Q v s') -> outcome s r Q.
  Proof.
    intros W I A Sh H. assert (St := do_shows s pos i c true q r fs sp (match r with Val v => Q v | _ => fun _ => False end) W I A Sh).
    destruct r as [v| |]; cbn [outcome]; auto; [|apply St; intros; discriminate].
    apply St. intros v2 s' E _. injection E as <-. auto.
  Qed.
  Definition done (s : st) (pos : nat) (sp : N) fs (lim a : N) (v : value) (s' : st) : Prop :=
    at_ s' pos sp fs /\ kept lim s s' /\ holds s' (phys sp a) (val_of v) /\ small v = true.
  Lemma eval_sim n d r e K0 G off K c a off' K' pos sp fs s : Pe n ->
    gexp G e off K = Some (c, a, off', K') -> grows K' KF -> within pos c -> wfG K0 G off -> 1 <= off -> off + len c <= CAP -> proper e = true ->
    inv s -> at_ s pos sp fs -> room d sp fs -> vals s sp G r ->
    outcome s (eval n d r e) (done s (pos + List.length c) sp fs (MEM_STACK + sp + off) a).
  Proof. intros H. exact (H d r e K0 G off K c a off' K' pos sp fs s). Qed.
  Lemma fn_found f g : find_fn fns f = Some g -> exists h, find_func p f = Some h /\ g = fn_of h /\ In h (sp_fns p) /\ sf_name h = f.
  Proof.
    rewrite find_both. unfold find_func. destruct (List.find _ (sp_fns p)) as [h|] eqn:E; [|discriminate]. cbn [option_map]. intros H. injection H as <-.
    apply find_some in E. destruct E as [E1 E2]. apply String.eqb_eq in E2. eauto.
  Qed.
  Lemma flags_bit0 f : In f (sp_fns p) -> forallb (fun a => match snd a with Some v => small v | None => true end) (sf_args f) = true.
  Proof.
    intros Hf. destruct (HP f Hf) as (K & H). unfold plain_func in H. apply andb_true_iff in H. destruct H as [H _]. apply andb_true_iff in H. destruct H as [H _].
    apply andb_true_iff in H. tauto.
  Qed.
  Lemma each_length {A} (f : A -> CompSpec.res value) l : forall vs, each f l = Val vs -> List.length vs = List.length l.
  Proof.
    induction l as [|a l IH]; intros vs H; cbn [each] in H; [injection H as <-; reflexivity|].
    destruct (f a); cbn [andthen] in H; try discriminate. destruct (each f l) as [us| |] eqn:E; cbn [andthen] in H; try discriminate.
    injection H as <-. cbn [List.length]. f_equal. now apply IH.
  Qed.

  Lemma pe_step n : (forall k, (k < n)%nat -> Pe k) -> (forall k, (k < n)%nat -> Pb k) -> Pe n.
  Proof.
    intros HE HB. destruct n as [|n]; [intros d r e K0 G off K c a off' K' pos sp fs s; intros; exact Logic.I|].
    assert (IHe : Pe n) by (apply HE; lia). clear HE.
    intros d r e K0 G off K c a off' K' pos sp fs s H Gr W Wf Lo Cap Pr I A R V.
    change (outcome s (eval (S n) d r e) (done s (pos + List.length c) sp fs (MEM_STACK + sp + off) a)).
    rewrite eval_S. pose proof EXM as EX. unfold CAP in *.
    destruct e as [v|y|e|e|o e1 e2|e|least e1 l|f l]; cbn [CompGen.gexp proper] in H, Pr.
    - destruct (kaddr (val_of v) K) as [a1 K2] eqn:E. s4 H. apply goes_now. rewrite Nat.add_0_r. split; auto. split; [apply kept_refl, I|]. split; auto.
      rewrite phys_const; [eapply const_holds; eauto using vals_of_val|]. pose proof (kaddr_lt _ _ _ _ _ E Gr). lia.
    - assert (Hl := vals_lookup s sp G r y V). destruct (lookup_var y G) as [v|]; [|discriminate]. destruct Hl as (w & -> & Sw & Hw). s4 H.
      apply goes_now. rewrite Nat.add_0_r. split; auto. split; [apply kept_refl, I|]. auto.
    - destruct (gexp G e off K) as [[[[c1 a2] off1] K2]|] eqn:E; [|discriminate]. s4 H. apply within_app in W. destruct W as [W1 W2]. lens.
      destruct (gexp_static fl fns KF LK K1 _ _ _ _ _ _ _ _ E Gr) as (S1 & S2 & S3 & _).
      assert (G1 : good off1 a2) by (eapply lgood; eauto).
      eapply out_then; [eapply eval_sim; eauto; unfold CAP; lia|]. intros v s1 _ (B1 & B2 & B3 & B4).
      assert (I1 : inv s1) by (eapply inv_kept; [exact I|exact B2|lia]).
      eapply out_shows; [exact W2|exact I1|exact B1| |].
      + eapply not_shows; [exact B1|eapply pos_ok; exact W2| | |exact B3| |reflexivity].
        * eapply stack_addr; [exact R|lia].
        * eapply good_addr; [exact R| |exact G1]; lia.
        * eapply stack_place; [exact R|lia|apply I1].
      + intros u s2 Eu Su Wr A2. injection Eu as <-. split; [rewrite app_length, Nat.add_assoc; exact A2|].
        split; [|split; [now apply holds_wrote in Wr|exact Su]]. eapply kept_trans; [exact B2|]. eapply kept_wrote; [exact Wr|apply vals_of_val|apply I1|].
        rewrite phys_stack by lia. lia.
    - destruct (gexp G e off K) as [[[[c1 a2] off1] K2]|] eqn:E; [|discriminate]. s4 H. apply within_app in W. destruct W as [W1 W2]. lens.
      destruct (gexp_static fl fns KF LK K1 _ _ _ _ _ _ _ _ E Gr) as (S1 & S2 & S3 & _).
      assert (G1 : good off1 a2) by (eapply lgood; eauto).
      eapply out_then; [eapply eval_sim; eauto; unfold CAP; lia|]. intros v s1 _ (B1 & B2 & B3 & B4).
      assert (I1 : inv s1) by (eapply inv_kept; [exact I|exact B2|lia]).
      eapply out_shows; [exact W2|exact I1|exact B1| |].
      + eapply flip_shows; [exact B1|eapply pos_ok; exact W2| | |exact B3| |exact B4|reflexivity].
        * eapply stack_addr; [exact R|lia].
        * eapply good_addr; [exact R| |exact G1]; lia.
        * eapply stack_place; [exact R|lia|apply I1].
      + intros u s2 Eu Su Wr A2. split; [rewrite app_length, Nat.add_assoc; exact A2|].
        split; [|split; [now apply holds_wrote in Wr|exact Su]]. eapply kept_trans; [exact B2|]. eapply kept_wrote; [exact Wr|apply vals_of_val|apply I1|].
        rewrite phys_stack by lia. lia.
    - apply andb_true_iff in Pr. destruct Pr as [P1 P2].
      destruct (gexp G e1 off K) as [[[[c1 a2] off1] K2]|] eqn:E; [|discriminate]. destruct (is_shift o) eqn:Sh.
      + destruct (gexp G e2 (off1 + 1) K2) as [[[[c2 a3] off2] K3]|] eqn:E2; [|discriminate]. s4 H.
        apply within_app in W. destruct W as [W1 W2]. apply within_app in W2. destruct W2 as [W2 W3]. lens.
        assert (Gr2 : grows K2 KF) by (eapply grows_trans; [eapply gexp_grows; exact E2|exact Gr]).
        destruct (gexp_static fl fns KF LK K1 _ _ _ _ _ _ _ _ E Gr2) as (S1 & S2 & S3 & _).
        destruct (gexp_static fl fns KF LK K1 _ _ _ _ _ _ _ _ E2 Gr) as (T1 & T2 & T3 & _).
        assert (G1 : good off1 a2) by (eapply lgood; eauto).
        assert (Wf1 : wfG K0 G (off1 + 1)) by (eapply wfm; [|exact Wf]; lia).
        assert (G2 : good off2 a3) by (eapply lgood; [exact Wf1|lia|lia|exact T3]).
        eapply out_then; [eapply eval_sim with (e := e1); eauto; unfold CAP; lia|]. intros v s1 _ (B1 & B2 & B3 & B4).
        assert (I1 : inv s1) by (eapply inv_kept; [exact I|exact B2|lia]).
        eapply out_then; [eapply eval_sim with (e := e2); eauto; [lia|unfold CAP; lia|eapply vals_kept; [exact Wf|exact B2|lia|exact V]]|].
        intros w s2 _ (D1 & D2 & D3 & D4).
        assert (Kp : kept (MEM_STACK + sp + off) s s2) by (eapply kept_trans; [exact B2|eapply kept_mono; [|exact D2]; lia]).
        assert (I2 : inv s2) by (eapply inv_kept; [exact I|exact Kp|lia]).
        assert (Hv2 : holds s2 (phys sp a2) (val_of v)).
        { eapply holds_kept; [exact D2| |exact B3]. pose proof (phys_lt sp _ _ G1). lia. }
        eapply out_shows; [exact W3|exact I2|exact D1| |].
        * assert (Cd : code_of o = (if (match o with OShl => true | _ => false end) then OP_SHL else OP_SHR)) by (destruct o; try discriminate Sh; reflexivity).
          assert (Op : binary_op (fl_catch fl) o v w = binary_op true (if (match o with OShl => true | _ => false end) then OShl else OShr) v w)
            by (destruct o; try discriminate Sh; reflexivity).
          rewrite Cd, Op. eapply shift_shows; [exact D1|eapply pos_ok; exact W3| | | |exact Hv2|exact D3| |exact B4|exact D4].
          -- eapply stack_addr; [exact R|lia].
          -- eapply good_addr; [exact R| |exact G1]; lia.
          -- eapply good_addr; [exact R| |exact G2]; lia.
          -- eapply stack_place; [exact R|lia|apply I2].
        * intros u s3 Eu Su Wr A2. split; [rewrite !app_length, !Nat.add_assoc; exact A2|].
          split; [|split; [now apply holds_wrote in Wr|exact Su]]. eapply kept_trans; [exact Kp|]. eapply kept_wrote; [exact Wr|apply vals_of_val|apply I2|].
          rewrite phys_stack by lia. lia.
      + destruct (gexp G e2 off1 K2) as [[[[c2 a3] off2] K3]|] eqn:E2; [|discriminate].
        destruct (gopt fl _ _ a3 K3) as [[[op f] rhs] K4] eqn:E3. s4 H.
        apply within_app in W. destruct W as [W1 W2]. apply within_app in W2. destruct W2 as [W2 W3]. lens.
        assert (Gr3 : grows K3 KF) by (eapply grows_trans; [eapply gopt_grows; exact E3|exact Gr]).
        assert (Gr2 : grows K2 KF) by (eapply grows_trans; [eapply gexp_grows; exact E2|exact Gr3]).
        destruct (gexp_static fl fns KF LK K1 _ _ _ _ _ _ _ _ E Gr2) as (S1 & S2 & S3 & _).
        destruct (gexp_static fl fns KF LK K1 _ _ _ _ _ _ _ _ E2 Gr3) as (T1 & T2 & T3 & _).
        assert (G1 : good off1 a2) by (eapply lgood; eauto).
        assert (Wf1 : wfG K0 G off1) by (eapply wfm; [|exact Wf]; lia).
        assert (G2 : good off2 a3) by (eapply lgood; [exact Wf1|lia|lia|exact T3]).
        eapply out_then; [eapply eval_sim with (e := e1); eauto; unfold CAP; lia|]. intros v s1 _ (B1 & B2 & B3 & B4).
        assert (I1 : inv s1) by (eapply inv_kept; [exact I|exact B2|lia]).
        eapply out_then; [eapply eval_sim with (e := e2); eauto; [lia|unfold CAP; lia|eapply vals_kept; [exact Wf|exact B2|lia|exact V]]|].
        intros w s2 _ (D1 & D2 & D3 & D4).
        assert (Kp : kept (MEM_STACK + sp + off) s s2) by (eapply kept_trans; [exact B2|eapply kept_mono; [|exact D2]; lia]).
        assert (I2 : inv s2) by (eapply inv_kept; [exact I|exact Kp|lia]).
        assert (Hv2 : holds s2 (phys sp a2) (val_of v)).
        { eapply holds_kept; [exact D2| |exact B3]. pose proof (phys_lt sp _ _ G1). lia. }
        eapply out_shows; [exact W3|exact I2|exact D1| |].
        * eapply opt_shows; [exact D1|eapply pos_ok; exact W3| | | |exact Hv2|exact D3| |exact B4|exact D4|apply I2|exact Sh|exact E3|exact Gr|apply I2].
          -- eapply stack_addr; [exact R|lia].
          -- eapply good_addr; [exact R| |exact G1]; lia.
          -- eapply good_addr; [exact R| |exact G2]; lia.
          -- eapply stack_place; [exact R|lia|apply I2].
        * intros u s3 Eu Su Wr A2. split; [rewrite !app_length, !Nat.add_assoc; exact A2|].
          split; [|split; [now apply holds_wrote in Wr|exact Su]]. eapply kept_trans; [exact Kp|]. eapply kept_wrote; [exact Wr|apply vals_of_val|apply I2|].
          rewrite phys_stack by lia. lia.
    - eapply eval_sim; eauto.
    - destruct l as [|e2 l]; [discriminate|]. destruct (gexp G e1 (off + 1) K) as [[[[c1 a2] off1] K2]|] eqn:E; [|discriminate].
      destruct (gpicks (gexp G) _ _ a2 (e2 :: l) off1 K2) as [[[c2 off2] K3]|] eqn:E2; [|discriminate]. s4 H.
      apply andb_true_iff in Pr. destruct Pr as [P1 P2]. apply within_app in W. destruct W as [W1 W2]. lens.
      assert (Gr2 : grows K2 KF) by (eapply grows_trans; [eapply gpicks_grows; [|exact E2]|exact Gr]; apply Forall_forall; intros; eapply gexp_grows; eauto).
      assert (St : off1 + 1 <= off1 + len c2).
      { eapply gpicks_static in E2; [|exact LK|exact K1| |exact Gr|now destruct least]; [|apply Forall_forall; intros; eapply gexp_static; eauto using K1].
        destruct E2 as (Z1 & Z2 & Z3 & Z4). specialize (Z4 ltac:(discriminate)). lia. }
      destruct (gexp_static fl fns KF LK K1 _ _ _ _ _ _ _ _ E Gr2) as (S1 & S2 & S3 & _).
      assert (Wf1 : wfG K0 G (off + 1)) by (eapply wfm; [|exact Wf]; lia).
      assert (G1 : good off1 a2) by (eapply lgood; [exact Wf1|lia|lia|exact S3]).
      eapply out_then; [eapply eval_sim with (e := e1); [exact IHe|exact E|exact Gr2|exact W1|exact Wf1|lia|unfold CAP; lia|exact P1|exact I|exact A|exact R|exact V]|].
      intros v s1 _ (B1 & B2 & B3 & B4).
      assert (I1 : inv s1) by (eapply inv_kept; [exact I|exact B2|lia]).
      assert (Q := picks_sim n d r sp fs least off IHe Lo ltac:(lia) (e2 :: l) K0 G a2 off1 K2 c2 off2 K3 _ v s1 E2 Gr W2 Wf ltac:(lia) ltac:(unfold CAP; lia) G1 P2 I1 B1 R
        ltac:(eapply vals_kept; [exact Wf|exact B2|lia|exact V]) B3 B4).
      change (outcome s1 (picks (fun e => eval n d r e) least v (e2 :: l)) (done s1 (pos + List.length c1 + List.length c2) sp fs (MEM_STACK + sp + off) (MEM_STACK + off))) in Q.
      eapply out_weaken; [exact Q|]. intros u s2 _ (D1 & D2 & D3 & D4). split; [rewrite app_length, Nat.add_assoc; exact D1|].
      split; [|split; [exact D3|exact D4]]. eapply kept_trans; [eapply kept_mono; [|exact B2]; lia|exact D2].
    - apply andb_true_iff in Pr. destruct Pr as [_ P2].
      destruct (find_fn fns f) as [g0|] eqn:Ef; [|discriminate]. apply fn_found in Ef. destruct Ef as (g & Fg & -> & Ig & Ng).
      destruct (Nat.ltb_spec (List.length (fn_args (fn_of g))) (List.length l)) as [|Ll]; [discriminate|].
      destruct (gexps (gexp G) l off K) as [[[[c1 rs] off1] K2]|] eqn:E; [|discriminate].
      destruct (gdefaults _ _ K2) as [c3 K3] eqn:E2. s4 H. change (instr * option ident)%type with ains in *.
      apply within_app in W. destruct W as [W1 W2]. apply within_app in W2. destruct W2 as [W2 W3]. apply within_app in W3. destruct W3 as [W3 W4].
      assert (Gr2 : grows K2 KF) by (eapply grows_trans; [eapply gdefaults_grows; exact E2|exact Gr]). lens.
      pose proof E as E'. eapply gexps_static in E'; [|exact LK|exact K1| |exact Gr2]; [|apply Forall_forall; intros; eapply gexp_static; eauto using K1].
      destruct E' as (S1 & S2 & S3 & _ & S5).
      assert (Gs : Forall (good off1) rs) by (eapply Forall_impl; [|exact S3]; intros b Hb; eapply lgood; eauto).
      cbn [fn_of fn_args] in *. rewrite map_length in Ll. rewrite skipn_map in E2.
      pose proof (Nargs g Ig) as Na. assert (Lr : len l <= len (sf_args g)) by (rewrite <- !len_eq; lia).
      assert (Lr2 : len rs = len l) by (rewrite <- !len_eq; lia).
      assert (Lsk : len (skipn (List.length l) (sf_args g)) = len (sf_args g) - len l) by (rewrite <- !len_eq, skipn_length; lia).
      assert (Q := each_sim n d r sp fs IHe l K0 G off K c1 rs off1 K2 pos s E Gr2 W1 Wf Lo ltac:(unfold CAP; lia) P2 I A R V).
      change (outcome s (each (fun e => eval n d r e) l) (fun vs s' => at_ s' (pos + List.length c1) sp fs /\ kept (MEM_STACK + sp + off) s s' /\
                                  Forall2 (fun a v => holds s' (phys sp a) (val_of v) /\ small v = true) rs vs)) in Q.
      eapply out_then; [exact Q|]. clear Q. intros vs s1 Evs (B1 & B2 & B3). apply each_length in Evs.
      assert (I1 : inv s1) by (eapply inv_kept; [exact I|exact B2|lia]).
      rewrite <- (N.add_assoc MEM_STACK off1 1) in *.
      assert (Q := copies_sim d sp fs rs vs (off1 + 1) off1 _ s1 W2 Gs ltac:(lia) ltac:(lia) I1 B1 R B3).
      eapply out_goes; [exact Q|]. clear Q. intros s2 (D1 & D2 & D3).
      assert (I2 : inv s2) by (eapply inv_kept; [exact I1|exact D2|lia]).
      replace (MEM_STACK + (off1 + 1) + N.of_nat (List.length l)) with (MEM_STACK + (off1 + 1 + len l)) in E2 by (rewrite len_eq; lia).
      assert (Q := defaults_sim d sp fs _ _ _ _ _ _ s2 E2 Gr W3 ltac:(lia) I2 D1 R).
      eapply out_goes; [exact Q|]. clear Q. intros s3 (F1 & F2 & F3).
      assert (I3 : inv s3) by (eapply inv_kept; [exact I2|exact F2|lia]).
      assert (Kp : kept (MEM_STACK + sp + off) s s3).
      { eapply kept_trans; [exact B2|]. eapply kept_trans; [eapply kept_mono; [|exact D2]; lia|eapply kept_mono; [|exact F2]; lia]. }
      assert (Pos4 := pos_ok _ _ _ W4). assert (At4 := F1). set (pos4 := (pos + List.length c1 + List.length (gcopies (MEM_STACK + (off1 + 1)) rs) + List.length c3)%nat) in *.
      destruct (HF g Ig) as (pre & cg & post & Kg1 & Kg2 & _ & _ & _ & Lk).
      assert (Cd : nth_error (s_code s3) (N.to_nat (N.of_nat pos4)) = Some (mk_instr OP_CALL 0 (N.of_nat (List.length pre)) off1 0 0)).
      { rewrite (code_in s3 _ _ _ I3 W4). cbn [linked]. rewrite <- Ng, Lk. reflexivity. }
      pose proof (room_sp _ _ _ R) as Rs. pose proof STS.
      assert (Ex := exec_call bk x rc rd s3 (N.of_nat pos4) sp fs At4 (N.of_nat (List.length pre)) off1 ltac:(lia) ltac:(rewrite W64; lia)).
      rewrite At4 in Ex. cbn [List.length] in Ex. destruct R as (R1 & R2 & R3).
      destruct n as [|m]; [exact Logic.I|]. rewrite call_S, Fg. destruct d as [|d].
      + replace (MAX_CALL_RECURSION <=? S (List.length fs))%nat with true in Ex by (symmetry; apply Nat.leb_le; unfold MAX_CALL_RECURSION; lia).
        eapply step_fails; [exact At4|exact Cd|exact Ex].
      + replace (MAX_CALL_RECURSION <=? S (List.length fs))%nat with false in Ex by (symmetry; apply Nat.leb_gt; unfold MAX_CALL_RECURSION; lia).
        set (s4 := EngineModel.set_frames ((N.of_nat (List.length pre), sp + off1) :: (N.of_nat pos4, sp) :: fs) (set_gas (s_gas s3 + INSTR_COST + INSTR_CALL_COST) s3)) in *.
        eapply out_goes with (Q := fun s' => s' = s4); [eapply step_goes; [exact At4|exact Cd|exact Ex|reflexivity]|]. intros s' ->.
        assert (I4 : inv s4) by exact I3.
        assert (Rm : room d (sp + off1) ((N.of_nat pos4, sp) :: fs)).
        { split; [cbn [List.length]; lia|]. split; [lia|]. lia. }
        assert (Av : argvals (sf_args g) vs = vs ++ map dflt_of (skipn (List.length l) (sf_args g))) by (rewrite argvals_eq by lia; now rewrite Evs).
        assert (Q := HB m ltac:(lia) d g vs (List.length pre) (sp + off1) ((N.of_nat pos4, sp) :: fs) s4 Ig Lk).
        rewrite Av in Q.
        assert (Sm : Forall (fun v => small v = true) (vs ++ map dflt_of (skipn (List.length l) (sf_args g)))).
        { apply Forall_app. split.
          - clear -B3. induction B3; constructor; tauto.
          - pose proof (flags_bit0 g Ig) as Fd. rewrite forallb_forall in Fd. apply Forall_forall. intros u Hu. apply in_map_iff in Hu.
            destruct Hu as (b & <- & Hb). assert (Hb' : In b (sf_args g)) by (rewrite <- (firstn_skipn (List.length l)); apply in_or_app; now right).
            specialize (Fd b Hb'). unfold dflt_of. destruct (snd b); auto. }
        specialize (Q Sm).
        assert (Ar : forall i v, nth_error (vs ++ map dflt_of (skipn (List.length l) (sf_args g))) i = Some v -> holds s4 (MEM_STACK + (sp + off1) + 1 + N.of_nat i) (val_of v)).
        { intros i v Hi. change (holds s3 (MEM_STACK + (sp + off1) + 1 + N.of_nat i) (val_of v)).
          destruct (Nat.lt_ge_cases i (List.length vs)) as [Li|Li].
          - rewrite nth_error_app1 in Hi by auto. replace (MEM_STACK + (sp + off1) + 1 + N.of_nat i) with (MEM_STACK + sp + (off1 + 1) + N.of_nat i) by lia.
            eapply holds_kept; [exact F2| |apply D3; exact Hi]. rewrite <- len_eq. lia.
          - rewrite nth_error_app2 in Hi by auto. replace (MEM_STACK + (sp + off1) + 1 + N.of_nat i) with (MEM_STACK + sp + (off1 + 1 + len l) + N.of_nat (i - List.length vs))
              by (rewrite <- len_eq; lia). now apply F3. }
        specialize (Q Ar I4 eq_refl Rm).
        change (outcome s4 (body m d g vs) (back s4 (sp + off1) ((N.of_nat pos4, sp) :: fs))) in Q.
        eapply out_weaken; [exact Q|]. intros v s5 _ (J1 & J2 & J3 & J4). split; [|split; [|split]].
        * unfold at_. rewrite J1. cbn [bump]. do 2 f_equal. unfold pos4. rewrite !app_length. cbn [List.length]. lia.
        * eapply kept_trans; [exact Kp|]. destruct J2 as (U1 & U2 & U3). split; [exact U1|]. split; [exact U2|]. intros b Hb. apply U3. lia.
        * rewrite phys_stack by lia. replace (MEM_STACK + off1 + sp) with (MEM_STACK + (sp + off1)) by lia. exact J3.
        * exact J4.
  Qed.

  (** *** Statements *)
  Lemma flows_kept s s1 sp fs pos G f s' : kept (MEM_STACK + sp + 1) s s1 -> flows s1 sp fs pos G f s' -> flows s sp fs pos G f s'.
  Proof.
    intros Kp. destruct f as [r|v]; cbn [flows].
    - intros (A & B & D). split; [|split]; auto. eapply kept_trans; eauto.
    - intros (A & B & D & E). split; [|split; [|split]]; auto. eapply kept_trans; [eapply kept_mono; [|exact Kp]; lia|exact B].
  Qed.
  Lemma nil_kept s s1 sp : kept (MEM_STACK + sp + 1) s s1 -> holds s (MEM_STACK + sp) VNil -> holds s1 (MEM_STACK + sp) VNil.
  Proof. intros Kp. apply (holds_kept _ _ _ _ _ Kp). lia. Qed.
  Lemma wrote_at s q v s' : wrote s q v s' -> holds s' q v. Proof. apply holds_wrote. Qed.
  Lemma seq_sim n d sp fs : Ps n -> forall l r K0 G off K c D off' K' pos s,
    gstmts l G off K pos = Some (c, D, off', K') -> grows K' KF -> within pos c -> wfG K0 G off -> 1 <= off -> off + len c <= CAP ->
    forallb (plain K0) l = true -> inv s -> at_ s pos sp fs -> room d sp fs -> vals s sp G r -> holds s (MEM_STACK + sp) VNil ->
    ends_as s sp fs (pos + List.length c) (D ++ G) (CompSpec.seq (fun r s => exec n d r s) r l).
  Proof.
    intros IHs. induction l as [|st l IH]; intros r K0 G off K c D off' K' pos s H Gr W Wf Lo Cap Pl I A R V Hn.
    - s4 H. cbn [CompSpec.seq]. apply goes_now. rewrite Nat.add_0_r. split; auto. split; [apply kept_refl, I|exact V].
    - rewrite gstmts_cons in H. destruct (gstmt st G off K pos) as [[[[c1 D1] off1] K2]|] eqn:E; [|discriminate].
      destruct (gstmts l _ off1 K2 _) as [[[[c2 D2] off2] K3]|] eqn:E2; [|discriminate]. s4 H.
      cbn [forallb] in Pl. apply andb_true_iff in Pl. destruct Pl as [P1 P2]. apply within_app in W. destruct W as [W1 W2]. lens.
      assert (Gr2 : grows K2 KF) by (eapply grows_trans; [eapply gstmts_grows; [|exact E2]|exact Gr]; apply Forall_forall; intros; apply gstmt_grows).
      destruct (gstmt_static fl text fns KF LK K1 K0 _ _ _ _ _ _ _ _ _ E Gr2 Wf Lo P1) as (S1 & S2 & S3 & _).
      cbn [CompSpec.seq]. eapply out_then; [eapply IHs; eauto; lia|]. intros f s1 _. destruct f as [r1|v]; cbn [flows].
      + intros (B1 & B2 & B3). assert (I1 : inv s1) by (eapply inv_kept; [exact I|exact B2|lia]).
        assert (Q := IH r1 K0 _ _ _ _ _ _ _ _ s1 E2 Gr W2 S3 ltac:(lia) ltac:(lia) P2 I1 B1 R B3 (nil_kept _ _ _ B2 Hn)).
        eapply out_weaken; [exact Q|]. intros f s2 _ Fl. rewrite app_length, Nat.add_assoc, <- app_assoc. eapply flows_kept; eauto.
      + intros B. apply goes_now. exact B.
  Qed.
  Lemma leave_vals s sp D G r r' : vals s sp (D ++ G) r' -> List.length G = List.length r -> vals s sp G (leave r r').
  Proof.
    unfold vals, leave. intros V L. apply Forall2_app_inv_l in V. destruct V as (r1 & r2 & V1 & V2 & ->).
    assert (L1 : List.length D = List.length r1) by (clear -V1; induction V1; cbn [List.length]; auto).
    assert (L2 : List.length G = List.length r2) by (clear -V2; induction V2; cbn [List.length]; auto).
    rewrite app_length. replace (List.length r1 + List.length r2 - List.length r)%nat with (List.length r1) by lia.
    rewrite skipn_app, skipn_all, Nat.sub_diag. exact V2.
  Qed.
  Lemma vals_push s' sp G r y q k v K0 off : wfG K0 G off -> MEM_STACK <= k -> vals s' sp G r -> holds s' (phys sp k) (val_of v) -> small v = true ->
    vals s' sp ((y, mk_var q k) :: G) ((y, (q, v)) :: r).
  Proof. intros Wf Lk V Hv Sv. constructor; [|exact V]. split; [|split; [|split]]; auto. Qed.

  (** an expression whose value is kept in a new variable *)
  Lemma declare_sim n d r q y e K0 G off K c D off' K' pos sp fs s : Pe n ->
    declare fl fns q y e G off K = Some (c, D, off', K') -> grows K' KF -> within pos c -> wfG K0 G off -> 1 <= off -> off + len c <= CAP ->
    proper e = true -> inv s -> at_ s pos sp fs -> room d sp fs -> vals s sp G r ->
    ends_as s sp fs (pos + List.length c) (D ++ G) (andthen (eval n d r e) (fun v => Val (Go ((y, (q, v)) :: r)))).
  Proof.
    intros IHe H Gr W Wf Lo Cap Pr I A R V. unfold declare in H.
    destruct (gexp G e (off + 1) K) as [[[[c1 a] off1] K2]|] eqn:E; [|discriminate]. s4 H. apply within_app in W. destruct W as [W1 W2].
    destruct (gexp_static fl fns KF LK K1 _ _ _ _ _ _ _ _ E Gr) as (S1 & S2 & S3 & _).
    assert (Cl := copy_len KF LK K1 K0 G off off1 a Wf S3). lens. unfold CAP in *.
    assert (Wf1 : wfG K0 G (off + 1)) by (eapply wfm; [|exact Wf]; lia).
    assert (G1 : good off1 a) by (eapply lgood; [exact Wf1|lia|lia|exact S3]).
    eapply out_then; [eapply eval_sim; [exact IHe|exact E|exact Gr|exact W1|exact Wf1|lia|unfold CAP; lia|exact Pr|exact I|exact A|exact R|exact V]|].
    intros v s1 _ (B1 & B2 & B3 & B4). assert (I1 : inv s1) by (eapply inv_kept; [exact I|exact B2|lia]).
    unfold gcopy in *. destruct (N.eqb_spec (MEM_STACK + off) a) as [|Ne]; [exfalso; lens; lia|].
    pose proof (room_sp _ _ _ R) as Rs. pose proof STK. pose proof EXM.
    assert (Ph : phys sp (MEM_STACK + off) = MEM_STACK + sp + off) by (rewrite phys_stack by lia; lia).
    assert (Pa : phys sp a <> MEM_STACK + sp + off) by (unfold phys; destruct (N.ltb_spec a MEM_STACK); lia).
    cbn [outcome]. eapply do_copy; [exact W2|exact I1|exact B1|exact R| | | | |exact B3|apply vals_of_val|].
    - eapply stack_addr; [exact R|lia].
    - eapply good_addr; [exact R| |exact G1]. lia.
    - congruence.
    - lia.
    - intros s2 Wr A2. assert (Kp2 : kept (MEM_STACK + sp + off) s1 s2) by (eapply kept_wrote; [exact Wr|apply vals_of_val|apply I1|lia]).
      assert (Kp : kept (MEM_STACK + sp + off) s s2) by (eapply kept_trans; [eapply kept_mono; [|exact B2]; lia|exact Kp2]).
      split; [rewrite app_length, Nat.add_assoc; exact A2|]. split; [eapply kept_mono; [|exact Kp]; lia|].
      eapply vals_push; [exact Wf|lia| | |exact B4].
      + eapply vals_kept; [exact Wf|exact Kp|lia|exact V].
      + apply holds_wrote in Wr. exact Wr.
  Qed.
  Lemma stack_kept K0 G off y v : wfG K0 G off -> lookup_var y G = Some v -> v_isconst v = false -> MEM_STACK < v_addr v < MEM_STACK + off.
  Proof.
    intros Wf E Nc. destruct (lookup_ok KF K0 _ _ _ _ Wf E) as [[[_ H]|[H _]] _]; cbn [snd] in H; [congruence|exact H].
  Qed.
  Lemma ps_step n : (forall k, (k < n)%nat -> Pe k) -> (forall k, (k < n)%nat -> Ps k) -> (forall k, (k < n)%nat -> Pl k) -> Ps n.
  Proof.
    intros HE HS HL. destruct n as [|n]; [intros d r st K0 G off K c D off' K' pos sp fs s; intros; exact Logic.I|].
    assert (IHe : Pe n) by (apply HE; lia). assert (IHs : Ps n) by (apply HS; lia). assert (IHl : Pl n) by (apply HL; lia). clear HE HS HL.
    intros d r st K0 G off K c D off' K' pos sp fs s H Gr W Wf Lo Cap Pl0 I A R V Hn. unfold CAP in *.
    rewrite exec_S. cbv zeta. pose proof EXM as EX. pose proof (room_sp _ _ _ R) as Rs. pose proof STK as Hst.
    destruct st as [y e|y e|y e|o y e|up q y|e|e|e|l|cd st e|cd st|ini cd post st]; cbn [CompGen.gstmt plain] in H, Pl0.
    - destruct e as [e|].
      + eapply declare_sim; eauto. unfold plain_exp in Pl0. apply andb_true_iff in Pl0. tauto.
      + s4 H. unfold gcopy in *. destruct (N.eqb_spec (MEM_STACK + off) 0) as [|Ne]; [lia|]. lens. cbn [outcome ends_as].
        assert (Ph : phys sp (MEM_STACK + off) = MEM_STACK + sp + off) by (rewrite phys_stack by lia; lia).
        assert (P0 : phys sp 0 = 0) by (apply phys_const; lia).
        eapply do_copy with (v := VNil); [exact W|exact I|exact A|exact R| | | | | |reflexivity|].
        * eapply stack_addr; [exact R|lia].
        * left. lia.
        * lia.
        * lia.
        * rewrite P0. destruct I as (_ & _ & _ & [_ I] & _). exact (I 0%nat VNil Knil).
        * intros s2 Wr A2. assert (Kp : kept (MEM_STACK + sp + off) s s2) by (eapply kept_wrote; [exact Wr|reflexivity|apply I|lia]).
          split; [exact A2|]. split; [eapply kept_mono; [|exact Kp]; lia|].
          eapply vals_push; [exact Wf|lia| | |reflexivity]; [eapply vals_kept; [exact Wf|exact Kp|lia|exact V]|]. apply holds_wrote in Wr. exact Wr.
    - apply andb_true_iff in Pl0. destruct Pl0 as [P1 P2]. unfold plain_exp in P1. apply andb_true_iff in P1. destruct P1 as [_ P1]. destruct (is_lit e) eqn:Le.
      + destruct e as [v| | | | | | |]; try discriminate Le. destruct (kaddr _ K) as [a K2] eqn:E. s4 H. destruct n as [|n]; [exact Logic.I|].
        rewrite eval_S. cbn [andthen]. apply goes_now. rewrite Nat.add_0_r. split; auto. split; [apply kept_refl, I|].
        constructor; [|exact V]. split; [|split; [|split]]; auto. cbn [fst snd v_addr]. rewrite phys_const; [eapply const_holds; eauto using vals_of_val|].
        pose proof (kaddr_lt _ _ _ _ _ E Gr). lia.
      + assert (Hd : declare fl fns true y e G off K = Some (c, D, off', K')) by (destruct e; try discriminate Le; exact H).
        eapply declare_sim; eauto.
    - unfold plain_exp in Pl0. apply andb_true_iff in Pl0. destruct Pl0 as [_ P1].
      assert (Hl := vals_lookup s sp G r y V). destruct (lookup_var y G) as [v|] eqn:Ev; [|discriminate].
      destruct (v_isconst v) eqn:Ec; [discriminate|]. assert (Rg := stack_kept _ _ _ _ _ Wf Ev Ec).
      destruct (gexp G e off K) as [[[[c1 a] off1] K2]|] eqn:E; [|discriminate]. s4 H. apply within_app in W. destruct W as [W1 W2].
      destruct (gexp_static fl fns KF LK K1 _ _ _ _ _ _ _ _ E Gr) as (S1 & S2 & S3 & _). lens.
      assert (G1 : good off1 a) by (eapply lgood; eauto).
      eapply out_then; [eapply eval_sim; eauto; unfold CAP; lia|]. intros w s1 _ (B1 & B2 & B3 & B4).
      assert (I1 : inv s1) by (eapply inv_kept; [exact I|exact B2|lia]).
      assert (V1 : vals s1 sp G r) by (eapply vals_kept; [exact Wf|exact B2|lia|exact V]).
      assert (Hl1 := vals_lookup s1 sp G r y V1). rewrite Ev in Hl1. destruct Hl1 as (w0 & -> & Sw0 & Hw0). rewrite Ec. cbn [andthen outcome]. clear Hl.
      assert (Ph : phys sp (v_addr v) = v_addr v + sp) by (apply phys_stack; lia).
      unfold gcopy in *. destruct (N.eqb_spec (v_addr v) a) as [Ea|Ne].
      + apply goes_now. rewrite app_nil_r. split; [exact B1|]. split; [eapply kept_mono; [|exact B2]; lia|]. cbn [app].
        assert (Ew : w = w0).
        { destruct B3 as (o1 & C1 & _ & V2), Hw0 as (o2 & C2 & _ & V3). rewrite Ea in C2. rewrite C1 in C2. injection C2 as <-. rewrite V2 in V3.
          clear -V3. destruct w as [|[]|], w0 as [|[]|]; cbn in V3; congruence. }
        rewrite Ew. assert (Ls := vals_lookup s1 sp G r y V1). rewrite Ev in Ls. destruct Ls as (w1 & Lw1 & Sw1 & Hw1).
        assert (Same : assign y w0 r = r).
        { assert (w1 = w0). { destruct Hw1 as (o1 & C1 & _ & V2), Hw0 as (o2 & C2 & _ & V3). rewrite C1 in C2. injection C2 as <-. rewrite V2 in V3.
            clear -V3. destruct w1 as [|[]|], w0 as [|[]|]; cbn in V3; congruence. } subst w1.
          clear -Lw1. induction r as [|[z [q t]] r IH]; [discriminate|]. cbn [lookup_var assign] in *. destruct (String.eqb y z); [congruence|]. f_equal. auto. }
        rewrite Same. exact V1.
      + cbn [app]. eapply do_copy; [exact W2|exact I1|exact B1|exact R| | | | |exact B3|apply vals_of_val|].
        * right. lia.
        * eapply good_addr; [exact R| |exact G1]. lia.
        * rewrite Ph. unfold phys. destruct (N.ltb_spec a MEM_STACK); lia.
        * lia.
        * intros s2 Wr A2. rewrite app_length, Nat.add_assoc. split; [exact A2|]. split.
          -- eapply kept_trans; [eapply kept_mono; [|exact B2]; lia|]. eapply kept_wrote; [exact Wr|apply vals_of_val|apply I1|lia].
          -- eapply vals_assign; [exact Wf|exact V1|exact Ev|lia|exact Wr|exact B4].
    - apply andb_true_iff in Pl0. destruct Pl0 as [P1 P3]. apply andb_true_iff in P1. destruct P1 as [P1 P2]. unfold plain_exp in P1. apply andb_true_iff in P1. destruct P1 as [_ P1].
      apply negb_true_iff in P3. rewrite update_flags in H by auto.
      destruct (lookup_var y G) as [v|] eqn:Ev; [|discriminate].
      destruct (gexp G e off K) as [[[[c1 a] off1] K2]|] eqn:E; [|discriminate].
      destruct (gopt fl _ _ a K2) as [[[op f] rhs] K3] eqn:E3. s4 H. apply within_app in W. destruct W as [W1 W2].
      assert (Gr2 : grows K2 KF) by (eapply grows_trans; [eapply gopt_grows; exact E3|exact Gr]).
      destruct (gexp_static fl fns KF LK K1 _ _ _ _ _ _ _ _ E Gr2) as (S1 & S2 & S3 & _). lens.
      assert (G1 : good off1 a) by (eapply lgood; eauto).
      eapply out_then; [eapply eval_sim; eauto; unfold CAP; lia|]. intros w s1 _ (B1 & B2 & B3 & B4).
      assert (I1 : inv s1) by (eapply inv_kept; [exact I|exact B2|lia]).
      assert (V1 : vals s1 sp G r) by (eapply vals_kept; [exact Wf|exact B2|lia|exact V]).
      assert (Hl1 := vals_lookup s1 sp G r y V1). rewrite Ev in Hl1. destruct Hl1 as (w0 & -> & Sw0 & Hw0).
      destruct (lookup_ok KF K0 _ _ _ _ Wf Ev) as [Gk _].
      assert (Gv : good off (v_addr v)) by (destruct Gk as [[Gk _]|[Gk _]]; [now left|now right]).
      assert (Sh : forall ok, place ok s1 (phys sp (v_addr v)) ->
        shows ok (mk_instr op f (v_addr v) (v_addr v) rhs 0) s1 (phys sp (v_addr v)) (binary_op (fl_catch fl) o w0 w)).
      { intros ok Pc. eapply opt_shows; [exact B1|eapply pos_ok; exact W2| | | |exact Hw0|exact B3|exact Pc|exact Sw0|exact B4|apply I1|now apply updatable_shift|exact E3|exact Gr|apply I1].
        - eapply good_addr; [exact R| |exact Gv]. lia.
        - eapply good_addr; [exact R| |exact Gv]. lia.
        - eapply good_addr; [exact R| |exact G1]. lia. }
      destruct Gk as [[Gk Ck]|[Gk Ck]]; cbn [fst snd] in Gk, Ck.
      + rewrite Ck. cbn [outcome]. assert (St := do_shows s1 _ _ _ false _ _ _ _ (fun _ => True) W2 I1 B1 (Sh false ltac:(rewrite phys_const by lia; split; [lia|apply I1]))).
        pose proof (updatable_closed (fl_catch fl) o w0 w P2) as No. destruct (binary_op (fl_catch fl) o w0 w); [|apply St; auto|congruence]. apply St. auto.
      + destruct (v_isconst v); [rewrite Ck in P3 by auto; discriminate|].
        eapply out_then; [eapply out_shows with (Q := fun u s2 => small u = true /\ wrote s1 (phys sp (v_addr v)) (val_of u) s2 /\ at_ s2 (pos + List.length c1 + 1) sp fs);
          [exact W2|exact I1|exact B1|apply (Sh true); rewrite phys_stack by lia; split; [lia|apply I1]|auto]|].
        intros u s2 _ (Su & Wr & A2). apply goes_now. rewrite app_length, Nat.add_assoc. split; [exact A2|].
        split; [|eapply vals_assign; [exact Wf|exact V1|exact Ev|lia|exact Wr|exact Su]].
        eapply kept_trans; [eapply kept_mono; [|exact B2]; lia|]. eapply kept_wrote; [exact Wr|apply vals_of_val|apply I1|]. rewrite phys_stack by lia. lia.
    - assert (Hl := vals_lookup s sp G r y V). destruct (lookup_var y G) as [v|] eqn:Ev; [|discriminate]. destruct Hl as (w0 & -> & Sw0 & Hw0).
      destruct (v_isconst v) eqn:Ec; [discriminate|]. assert (Rg := stack_kept _ _ _ _ _ Wf Ev Ec).
      destruct (kaddr (VUint 1) K) as [one K2] eqn:E1.
      assert (Ek : K' = K2) by (destruct q; apply some4 in H; symmetry; tauto). subst K'.
      assert (Lone := kaddr_lt _ _ _ _ _ E1 Gr).
      assert (Hone : forall s1, inv s1 -> holds s1 (phys sp one) (val_of (Num 1))).
      { intros s1 I1. rewrite phys_const by lia. eapply const_holds; [exact I1|reflexivity|exact E1|exact Gr]. }
      assert (Gv : good off (v_addr v)) by now right.
      assert (Sh : forall s1 pos1 a, inv s1 -> at_ s1 pos1 sp fs -> N.of_nat pos1 + 1 < 2 ^ 64 -> addr_ok sp a -> holds s1 (phys sp a) (val_of w0) ->
        shows true (mk_instr (if up then OP_ADD else OP_SUB) (math_flags fl) (v_addr v) a one 0) s1 (phys sp (v_addr v)) (binary_op (fl_catch fl) (if up then OAdd else OSub) w0 (Num 1))).
      { intros s1 pos1 a I1 A1 Bd Aa Ha. assert (Ad : addr_ok sp (v_addr v)) by (eapply good_addr; [exact R| |exact Gv]; lia). assert (Ao : addr_ok sp one) by (left; lia).
        assert (Pc : place true s1 (phys sp (v_addr v))) by (rewrite phys_stack by lia; split; [lia|apply I1]).
        destruct up; [eapply add_shows|eapply sub_shows]; [exact A1|exact Bd|exact Ad|exact Aa|exact Ao|exact Ha|now apply Hone|exact Pc|exact Sw0|reflexivity|apply I1|reflexivity|exact A1|exact Bd|exact Ad|exact Aa|exact Ao|exact Ha|now apply Hone|exact Pc|exact Sw0|reflexivity|apply I1|reflexivity]. }
      assert (Fin : forall s1 pos1 a c0, within pos1 (ins (if up then OP_ADD else OP_SUB) (math_flags fl) (v_addr v) a one :: c0) -> inv s1 -> at_ s1 pos1 sp fs ->
          kept (MEM_STACK + sp + off) s s1 -> addr_ok sp a -> holds s1 (phys sp a) (val_of w0) ->
          ends_as s1 sp fs (pos1 + 1) G (andthen (binary_op (fl_catch fl) (if up then OAdd else OSub) w0 (Num 1)) (fun w => Val (Go (assign y w r))))).
      { intros s1 pos1 a c0 W1 I1 A1 Kp Aa Ha.
        assert (V1 : vals s1 sp G r) by (eapply vals_kept; [exact Wf|exact Kp|lia|exact V]).
        eapply out_then; [eapply out_shows with (Q := fun u s2 => small u = true /\ wrote s1 (phys sp (v_addr v)) (val_of u) s2 /\ at_ s2 (pos1 + 1) sp fs);
          [exact W1|exact I1|exact A1|eapply Sh; eauto; eapply pos_ok; exact W1|auto]|].
        intros u s2 _ (Su & Wr & A2). apply goes_now. split; [exact A2|].
        split; [|eapply vals_assign; [exact Wf|exact V1|exact Ev|lia|exact Wr|exact Su]].
        eapply kept_wrote; [exact Wr|apply vals_of_val|apply I1|]. rewrite phys_stack by lia. lia. }
      assert (Av : addr_ok sp (v_addr v)) by (eapply good_addr; [exact R| |exact Gv]; lia).
      destruct q; apply some4 in H; destruct H as (<- & <- & <- & _); cbn [app].
      + eapply Fin; [exact W|exact I|exact A|apply kept_refl, I|exact Av|exact Hw0].
      + unfold gcopy in *. destruct (N.eqb_spec (MEM_STACK + off) (v_addr v)) as [|Ne]; [lia|]. lens. cbn [app] in *.
        pose proof W as W'. apply within_cons in W'. destruct W' as [_ W2].
        assert (Ph : phys sp (MEM_STACK + off) = MEM_STACK + sp + off) by (rewrite phys_stack by lia; lia).
        eapply out_goes; [eapply do_copy with (Q := fun s1 => wrote s (phys sp (MEM_STACK + off)) (val_of w0) s1 /\ at_ s1 (pos + 1) sp fs);
          [exact W|exact I|exact A|exact R|eapply stack_addr; [exact R|lia]|exact Av|rewrite !phys_stack by lia; lia|lia|exact Hw0|apply vals_of_val|auto]|].
        intros s1 (Wr & A1). rewrite Ph in Wr.
        assert (Kp : kept (MEM_STACK + sp + off) s s1) by (eapply kept_wrote; [exact Wr|apply vals_of_val|apply I|lia]).
        assert (I1 : inv s1) by (eapply inv_kept; [exact I|exact Kp|lia]).
        assert (Q := Fin s1 (pos + 1)%nat (MEM_STACK + off) [] W2 I1 A1 Kp ltac:(eapply stack_addr; [exact R|lia]) ltac:(rewrite Ph; now apply holds_wrote in Wr)).
        eapply out_weaken; [exact Q|]. intros u s2 _ Fl. cbn [List.length]. replace (pos + 2)%nat with (pos + 1 + 1)%nat by lia.
        eapply flows_kept; [|exact Fl]. eapply kept_mono; [|exact Kp]. lia.
    - unfold plain_exp in Pl0. apply andb_true_iff in Pl0. destruct Pl0 as [_ P1].
      destruct (gexp G e off K) as [[[[c1 a] off1] K2]|] eqn:E; [|discriminate]. s4 H.
      eapply out_then; [eapply eval_sim; eauto|]. intros w s1 _ (B1 & B2 & B3 & B4). apply goes_now. split; [exact B1|].
      split; [eapply kept_mono; [|exact B2]; lia|eapply vals_kept; [exact Wf|exact B2|lia|exact V]].
    - unfold plain_exp in Pl0. apply andb_true_iff in Pl0. destruct Pl0 as [_ P1].
      destruct (gexp G e off K) as [[[[c1 a] off1] K2]|] eqn:E; [|discriminate]. destruct (kaddr _ K2) as [m K3] eqn:E3. s4 H.
      apply within_app in W. destruct W as [W1 W2]. pose proof W2 as W3. apply within_cons in W3. destruct W3 as [_ W3].
      assert (Gr2 : grows K2 KF) by (eapply grows_trans; [eapply kaddr_grows; exact E3|exact Gr]).
      destruct (gexp_static fl fns KF LK K1 _ _ _ _ _ _ _ _ E Gr2) as (S1 & S2 & S3 & _). lens.
      assert (G1 : good off1 a) by (eapply lgood; eauto).
      eapply out_then; [eapply eval_sim; eauto; unfold CAP; lia|]. intros w s1 _ (B1 & B2 & B3 & B4).
      assert (I1 : inv s1) by (eapply inv_kept; [exact I|exact B2|lia]).
      eapply out_goes; [apply (do_jumpif s1 _ true _ _ _ _ _ w d off1 W2 I1 B1 R G1); [lia|exact B3]|].
      intros s2 (F2 & Kp). assert (I2 : inv s2) by (eapply inv_kept; [exact I1|apply (Kp MEM_STACK)|lia]).
      assert (Kp2 : kept (MEM_STACK + sp + off) s s2) by (eapply kept_trans; [exact B2|apply Kp]).
      destruct (truth w); cbn [Bool.eqb] in F2.
      + apply goes_now. split; [|split; [eapply kept_mono; [|exact Kp2]; lia|eapply vals_kept; [exact Wf|exact Kp2|lia|exact V]]].
        unfold at_. rewrite F2. do 2 f_equal. rewrite app_length. cbn [List.length]. lia.
      + assert (Lm := kaddr_lt _ _ _ _ _ E3 Gr).
        destruct (exec_fail bk x rc rd s2 (N.of_nat (pos + List.length c1 + 1)) sp fs F2 (pos_ok _ _ _ W3) m) as (s3 & Ex); [left; lia|lia|].
        eapply step_fails; [exact F2|exact (code_in s2 _ _ _ I2 W3)|exact Ex].
    - destruct e as [e|].
      + unfold plain_exp in Pl0. apply andb_true_iff in Pl0. destruct Pl0 as [_ P1].
        destruct (gexp G e off K) as [[[[c1 a] off1] K2]|] eqn:E; [|discriminate]. s4 H. apply within_app in W. destruct W as [W1 W2].
        destruct (gexp_static fl fns KF LK K1 _ _ _ _ _ _ _ _ E Gr) as (S1 & S2 & S3 & _). lens.
        assert (G1 : good off1 a) by (eapply lgood; eauto).
        eapply out_then; [eapply eval_sim; eauto; unfold CAP; lia|]. intros w s1 _ (B1 & B2 & B3 & B4).
        assert (I1 : inv s1) by (eapply inv_kept; [exact I|exact B2|lia]).
        unfold gcopy in *. destruct (N.eqb_spec MEM_STACK a) as [|Ne]; [destruct G1; lia|]. cbn [app] in W2.
        pose proof W2 as W3. apply within_cons in W3. destruct W3 as [_ W3].
        assert (Ph : phys sp MEM_STACK = MEM_STACK + sp) by (apply phys_stack; lia).
        eapply out_goes; [eapply do_copy with (Q := fun s2 => wrote s1 (phys sp MEM_STACK) (val_of w) s2 /\ at_ s2 (pos + List.length c1 + 1) sp fs);
          [exact W2|exact I1|exact B1|exact R|right; lia|eapply good_addr; [exact R| |exact G1]; lia| |lia|exact B3|apply vals_of_val|auto]|].
        { rewrite Ph. unfold phys. destruct (N.ltb_spec a MEM_STACK); lia. }
        intros s2 (Wr & A2). rewrite Ph in Wr.
        assert (Kp : kept (MEM_STACK + sp) s1 s2) by (eapply kept_wrote; [exact Wr|apply vals_of_val|apply I1|lia]).
        assert (I2 : inv s2) by (eapply inv_kept; [exact I1|exact Kp|lia]).
        cbn [outcome]. eapply goes_weaken; [eapply do_ret; [exact W3|exact I2|exact A2|exact R|apply holds_wrote in Wr; exact Wr|exact B4]|].
        intros s3 (J1 & J2 & J3 & J4). split; [exact J1|]. split; [|split; [exact J3|exact J4]].
        eapply kept_trans; [eapply kept_mono; [|exact B2]; lia|]. eapply kept_trans; [exact Kp|exact J2].
      + s4 H. cbn [outcome ends_as]. eapply goes_weaken; [eapply do_ret with (v := Null); [exact W|exact I|exact A|exact R|exact Hn|reflexivity]|]. intros s3 J. exact J.
    - destruct (gstmts l G off K pos) as [[[[c1 D1] off1] K2]|] eqn:E; [|discriminate]. s4 H.
      eapply out_then; [eapply seq_sim; eauto|]. intros f s1 _ Fl. apply goes_now. destruct f as [r1|v]; [|exact Fl].
      destruct Fl as (B1 & B2 & B3). split; [exact B1|]. split; [exact B2|]. cbn [app]. eapply leave_vals; [exact B3|]. eapply vals_len; exact V.
    - apply andb_true_iff in Pl0. destruct Pl0 as [Pl0 Pe0]. apply andb_true_iff in Pl0. destruct Pl0 as [Pl0 Pd]. apply andb_true_iff in Pl0. destruct Pl0 as [P1 P2].
      apply negb_true_iff in Pd. unfold plain_exp in P1. apply andb_true_iff in P1. destruct P1 as [_ P1].
      destruct (gexp G cd off K) as [[[[c1 a] off1] K2]|] eqn:E; [|discriminate].
      destruct (gstmt st G off1 K2 _) as [[[[c2 D2] off2] K3]|] eqn:E2; [|discriminate]. destruct e as [e|].
      + apply andb_true_iff in Pe0. destruct Pe0 as [Pe0 Pn]. apply negb_true_iff in Pn.
        destruct (gstmt e _ off2 K3 _) as [[[[c3 D3] off3] K4]|] eqn:E3; [|discriminate]. s4 H.
        apply within_app in W. destruct W as [W1 W2]. pose proof W2 as W3. apply within_cons in W3. destruct W3 as [_ W3].
        apply within_app in W3. destruct W3 as [W3 W4]. pose proof W4 as W5. apply within_cons in W5. destruct W5 as [_ W5].
        assert (Gr3 : grows K3 KF) by (eapply grows_trans; [eapply gstmt_grows; exact E3|exact Gr]).
        assert (Gr2 : grows K2 KF) by (eapply grows_trans; [eapply gstmt_grows; exact E2|exact Gr3]).
        destruct (gexp_static fl fns KF LK K1 _ _ _ _ _ _ _ _ E Gr2) as (S1 & S2 & S3 & _). lens.
        assert (G1 : good off1 a) by (eapply lgood; eauto).
        assert (Wf1 : wfG K0 G off1) by (eapply wfm; [|exact Wf]; lia).
        destruct (gstmt_static fl text fns KF LK K1 K0 _ _ _ _ _ _ _ _ _ E2 Gr3 Wf1 ltac:(lia) P2) as (T1 & T2 & T3 & T4).
        rewrite (T4 Pd) in *. cbn [app] in *.
        destruct (gstmt_static fl text fns KF LK K1 K0 _ _ _ _ _ _ _ _ _ E3 Gr T3 ltac:(lia) Pe0) as (U1 & U2 & U3 & U4).
        rewrite (U4 Pn) in *. cbn [app] in *.
        eapply out_then; [eapply eval_sim; eauto; unfold CAP; lia|]. intros w s1 _ (B1 & B2 & B3 & B4).
        assert (I1 : inv s1) by (eapply inv_kept; [exact I|exact B2|lia]).
        eapply out_goes; [apply (do_jumpif s1 _ false _ _ _ _ _ w d off1 W2 I1 B1 R G1); [lia|exact B3]|].
        intros s2 (F2 & Kp). assert (I2 : inv s2) by (eapply inv_kept; [exact I1|apply (Kp MEM_STACK)|lia]).
        assert (Kp2 : kept (MEM_STACK + sp + off) s s2) by (eapply kept_trans; [exact B2|apply Kp]).
        assert (V2 : vals s2 sp G r) by (eapply vals_kept; [exact Wf|exact Kp2|lia|exact V]).
        assert (Kn : kept (MEM_STACK + sp + 1) s s2) by (eapply kept_mono; [|exact Kp2]; lia).
        assert (Hn2 := nil_kept _ _ _ Kn Hn).
        destruct (truth w); cbn [Bool.eqb] in F2.
        * assert (Q := IHs d r st K0 G off1 K2 c2 [] off2 K3 _ sp fs s2 ltac:(rewrite E2; f_equal; f_equal; f_equal; f_equal; auto) Gr3 W3 Wf1 ltac:(lia) ltac:(unfold CAP; lia) P2 I2 F2 R V2 Hn2).
          destruct (exec n d r st) as [[r1|v]| |] eqn:Ex; cbn [outcome ends_as] in *; auto.
          -- eapply goes_then; [exact Q|]. intros s3 (D1' & D2' & D3').
             assert (I3 : inv s3) by (eapply inv_kept; [exact I2|exact D2'|lia]).
             eapply goes_weaken; [eapply do_jump; [exact W4|exact I3|exact D1']|]. intros s4 (J1 & J2).
             split; [|split; [eapply kept_trans; [exact Kn|eapply kept_trans; [exact D2'|apply J2]]|]].
             ++ unfold at_ in *. rewrite J1. do 2 f_equal. rewrite !app_length. cbn [List.length]. rewrite app_length. cbn [List.length]. lia.
             ++ eapply vals_kept; [exact T3|apply (J2 (MEM_STACK + sp + off2))|lia|exact D3'].
          -- eapply goes_weaken; [exact Q|]. intros s3 J. apply (flows_kept s s2 sp fs 0 [] (Back v)); auto.
        * assert (Pq : s_frames s2 = (N.of_nat (pos + List.length c1 + 1 + List.length c2 + 1), sp) :: fs) by exact F2.
          assert (Q := IHs d r e K0 G off2 K3 c3 [] off3 K4 _ sp fs s2 E3 Gr W5 T3 ltac:(lia) ltac:(unfold CAP; lia) Pe0 I2 Pq R V2 Hn2).
          eapply out_weaken; [exact Q|]. intros f s3 _ Fl.
          replace (pos + List.length (c1 ++ ins OP_JUMPN 0 (N.of_nat (pos + Datatypes.length c1 + 1 + Datatypes.length c2 + 1)) a 0 :: c2 ++ ins OP_JUMP 0 (N.of_nat (pos + Datatypes.length c1 + 1 + Datatypes.length c2 + 1 + Datatypes.length c3)) 0 0 :: c3))%nat
            with (pos + List.length c1 + 1 + List.length c2 + 1 + List.length c3)%nat
            by (rewrite app_length; cbn [List.length]; rewrite app_length; cbn [List.length]; lia).
          eapply flows_kept; [exact Kn|exact Fl].
      + s4 H. apply within_app in W. destruct W as [W1 W2]. pose proof W2 as W3. apply within_cons in W3. destruct W3 as [_ W3].
        assert (Gr2 : grows K2 KF) by (eapply grows_trans; [eapply gstmt_grows; exact E2|exact Gr]).
        destruct (gexp_static fl fns KF LK K1 _ _ _ _ _ _ _ _ E Gr2) as (S1 & S2 & S3 & _). lens.
        assert (G1 : good off1 a) by (eapply lgood; eauto).
        assert (Wf1 : wfG K0 G off1) by (eapply wfm; [|exact Wf]; lia).
        destruct (gstmt_static fl text fns KF LK K1 K0 _ _ _ _ _ _ _ _ _ E2 Gr Wf1 ltac:(lia) P2) as (T1 & T2 & T3 & T4).
        rewrite (T4 Pd) in *. cbn [app] in *.
        eapply out_then; [eapply eval_sim; eauto; unfold CAP; lia|]. intros w s1 _ (B1 & B2 & B3 & B4).
        assert (I1 : inv s1) by (eapply inv_kept; [exact I|exact B2|lia]).
        eapply out_goes; [apply (do_jumpif s1 _ false _ _ _ _ _ w d off1 W2 I1 B1 R G1); [lia|exact B3]|].
        intros s2 (F2 & Kp). assert (I2 : inv s2) by (eapply inv_kept; [exact I1|apply (Kp MEM_STACK)|lia]).
        assert (Kp2 : kept (MEM_STACK + sp + off) s s2) by (eapply kept_trans; [exact B2|apply Kp]).
        assert (V2 : vals s2 sp G r) by (eapply vals_kept; [exact Wf|exact Kp2|lia|exact V]).
        assert (Kn : kept (MEM_STACK + sp + 1) s s2) by (eapply kept_mono; [|exact Kp2]; lia).
        assert (Hn2 := nil_kept _ _ _ Kn Hn).
        assert (Ln : (pos + List.length (c1 ++ ins OP_JUMPN 0 (N.of_nat (pos + Datatypes.length c1 + 1 + Datatypes.length c2)) a 0 :: c2) = pos + List.length c1 + 1 + List.length c2)%nat)
          by (rewrite app_length; cbn [List.length]; lia).
        destruct (truth w); cbn [Bool.eqb] in F2.
        * assert (Q := IHs d r st K0 G off1 K2 c2 [] off2 K3 _ sp fs s2 E2 Gr W3 Wf1 ltac:(lia) ltac:(unfold CAP; lia) P2 I2 F2 R V2 Hn2).
          eapply out_weaken; [exact Q|]. intros f s3 _ Fl. rewrite Ln. eapply flows_kept; [exact Kn|exact Fl].
        * apply goes_now. split; [rewrite Ln; exact F2|]. split; [exact Kn|exact V2].
    - apply andb_true_iff in Pl0. destruct Pl0 as [Pl0 Pd]. apply andb_true_iff in Pl0. destruct Pl0 as [P1 P2].
      apply negb_true_iff in Pd. unfold plain_exp in P1. apply andb_true_iff in P1. destruct P1 as [_ P1].
      destruct (gexp G cd off K) as [[[[c1 a] off1] K2]|] eqn:E; [|discriminate].
      destruct (gstmt st G off1 K2 _) as [[[[c2 D2] off2] K3]|] eqn:E2; [|discriminate]. s4 H.
      assert (Gr2 : grows K2 KF) by (eapply grows_trans; [eapply gstmt_grows; exact E2|exact Gr]).
      destruct (gexp_static fl fns KF LK K1 _ _ _ _ _ _ _ _ E Gr2) as (S1 & S2 & S3 & _).
      assert (Wf1 : wfG K0 G off1) by (eapply wfm; [|exact Wf]; lia).
      destruct (gstmt_static fl text fns KF LK K1 K0 _ _ _ _ _ _ _ _ _ E2 Gr Wf1 ltac:(lia) P2) as (T1 & T2 & T3 & T4).
      rewrite (T4 Pd) in *. cbn [app] in *.
      assert (Q := IHl d r cd [] st K0 G off K pos c1 a off1 K2 c2 off2 K3 [] off2 K3 sp fs s E E2 eq_refl Gr).
      cbv zeta in Q. cbn [app List.length] in Q. rewrite Nat.add_0_r in Q.
      specialize (Q W Wf Lo Cap P1 P2 eq_refl I A R V Hn).
      rewrite app_length. cbn [List.length]. rewrite app_length. cbn [List.length].
      replace (pos + (List.length c1 + S (List.length c2 + 1)))%nat with (pos + List.length c1 + 1 + List.length c2 + 1)%nat by lia. exact Q.
    - apply andb_true_iff in Pl0. destruct Pl0 as [Pl0 Pd]. apply andb_true_iff in Pl0. destruct Pl0 as [Pl0 P4]. apply andb_true_iff in Pl0. destruct Pl0 as [Pl0 P5].
      apply andb_true_iff in Pl0. destruct Pl0 as [Pl0 P3]. apply andb_true_iff in Pl0. destruct Pl0 as [P1 P2].
      apply negb_true_iff in Pd. unfold plain_exp in P2. apply andb_true_iff in P2. destruct P2 as [_ P2].
      destruct (gstmts ini G off K pos) as [[[[c0 D0] off0] K2]|] eqn:E0; [|discriminate]. destruct (gexp _ cd off0 K2) as [[[[c1 a] off1] K3]|] eqn:E1; [|discriminate].
      destruct (gstmt st _ off1 K3 _) as [[[[c2 D2] off2] K4]|] eqn:E2; [|discriminate]. destruct (gstmts post _ off2 K4 _) as [[[[c3 D3] off3] K5]|] eqn:E3; [|discriminate].
      s4 H. apply within_app in W. destruct W as [W1 W2].
      assert (Gr4 : grows K4 KF) by (eapply grows_trans; [eapply gstmts_grows; [|exact E3]|exact Gr]; apply Forall_forall; intros; apply gstmt_grows).
      assert (Gr3 : grows K3 KF) by (eapply grows_trans; [eapply gstmt_grows; exact E2|exact Gr4]).
      assert (Gr2 : grows K2 KF) by (eapply grows_trans; [eapply gexp_grows; exact E1|exact Gr3]).
      pose proof E0 as E0'. eapply gstmts_static in E0'; [|exact LK|exact K1|apply Forall_forall; intros; eapply gstmt_static; eauto using K1|exact Gr2|exact Wf|exact Lo|exact P1].
      destruct E0' as (R1 & R2 & R3 & _).
      destruct (gexp_static fl fns KF LK K1 _ _ _ _ _ _ _ _ E1 Gr3) as (S1 & S2 & S3 & _).
      assert (Wf1 : wfG K0 (D0 ++ G) off1) by (eapply wfm; [|exact R3]; lia).
      destruct (gstmt_static fl text fns KF LK K1 K0 _ _ _ _ _ _ _ _ _ E2 Gr4 Wf1 ltac:(lia) P4) as (T1 & T2 & T3 & T4).
      rewrite (T4 Pd) in *. cbn [app] in *.
      pose proof E3 as E3'. eapply gstmts_static in E3'; [|exact LK|exact K1|apply Forall_forall; intros; eapply gstmt_static; eauto using K1|exact Gr|exact T3|lia|exact P3].
      destruct E3' as (U1 & U2 & U3 & U4). rewrite (U4 P5) in *. cbn [app] in *.
      rewrite len_app in Cap.
      eapply out_then; [eapply seq_sim; [exact IHs|exact E0|exact Gr2|exact W1|exact Wf|exact Lo|unfold CAP; lia|exact P1|exact I|exact A|exact R|exact V|exact Hn]|].
      intros f s1 _ Fl. destruct f as [r1|v]; [|apply goes_now; exact Fl]. destruct Fl as (B1 & B2 & B3).
      assert (I1 : inv s1) by (eapply inv_kept; [exact I|exact B2|lia]).
      assert (Q := IHl d r1 cd post st K0 (D0 ++ G) off0 K2 (pos + List.length c0)%nat c1 a off1 K3 c2 off2 K4 c3 off3 K5 sp fs s1 E1 E2 E3 Gr).
      cbv zeta in Q. specialize (Q W2 R3 ltac:(lia) ltac:(unfold CAP; lia) P2 P4 P3 I1 B1 R B3 (nil_kept _ _ _ B2 Hn)).
      eapply out_then; [exact Q|]. intros f s2 _ Fl. apply goes_now. destruct f as [r2|v]; [|now apply (flows_kept s s1 sp fs 0 [] (Back v))].
      destruct Fl as (D1' & D2' & D3'). split; [|split; [eapply kept_trans; [exact B2|exact D2']|]].
      + rewrite app_length, app_length. cbn [List.length]. rewrite !app_length. cbn [List.length].
        replace (pos + (List.length c0 + (List.length c1 + S (List.length c2 + (List.length c3 + 1)))))%nat
          with (pos + List.length c0 + List.length c1 + 1 + List.length c2 + List.length c3 + 1)%nat by lia. exact D1'.
      + eapply leave_vals; [exact D3'|]. eapply vals_len; exact V.
  Qed.
  Lemma pl_step n : (forall k, (k < n)%nat -> Pe k) -> (forall k, (k < n)%nat -> Ps k) -> (forall k, (k < n)%nat -> Pl k) -> Pl n.
  Proof.
    intros HE HS HL. destruct n as [|n]; [intros d r cd post st K0 G off K pos c1 a off1 K2 c2 off2 K3 c3 off3 K4 sp fs s; intros; exact Logic.I|].
    assert (IHe : Pe n) by (apply HE; lia). assert (IHs : Ps n) by (apply HS; lia). assert (IHl : Pl n) by (apply HL; lia). clear HE HS HL.
    intros d r cd post st K0 G off K pos c1 a off1 K2 c2 off2 K3 c3 off3 K4 sp fs s E1 E2 E3 Gr pend c W Wf Lo Cap P1 P2 P3 I A R V Hn.
    rewrite loop_S. pose proof EXM as EX. pose proof W as W0. pose proof Cap as Cap0. subst c. unfold CAP in *.
    apply within_app in W. destruct W as [W1 W2]. pose proof W2 as W3. apply within_cons in W3. destruct W3 as [_ W3].
    apply within_app in W3. destruct W3 as [W3 W4]. apply within_app in W4. destruct W4 as [W4 W5].
    assert (Gr3 : grows K3 KF) by (eapply grows_trans; [eapply gstmts_grows; [|exact E3]|exact Gr]; apply Forall_forall; intros; apply gstmt_grows).
    assert (Gr2 : grows K2 KF) by (eapply grows_trans; [eapply gstmt_grows; exact E2|exact Gr3]).
    destruct (gexp_static fl fns KF LK K1 _ _ _ _ _ _ _ _ E1 Gr2) as (S1 & S2 & S3 & _).
    assert (G1 : good off1 a) by (eapply lgood; eauto).
    assert (Wf1 : wfG K0 G off1) by (eapply wfm; [|exact Wf]; lia).
    destruct (gstmt_static fl text fns KF LK K1 K0 _ _ _ _ _ _ _ _ _ E2 Gr3 Wf1 ltac:(lia) P2) as (T1 & T2 & T3 & _).
    cbn [app] in T3. rewrite !len_app, len_cons, !len_app, len_cons, len_nil in Cap.
    eapply out_then; [eapply eval_sim; eauto; unfold CAP; lia|]. intros w s1 _ (B1 & B2 & B3 & B4).
    assert (I1 : inv s1) by (eapply inv_kept; [exact I|exact B2|lia]).
    eapply out_goes; [apply (do_jumpif s1 _ false _ _ _ _ _ w d off1 W2 I1 B1 R G1); [lia|exact B3]|].
    intros s2 (F2 & Kp). assert (I2 : inv s2) by (eapply inv_kept; [exact I1|apply (Kp MEM_STACK)|lia]).
    assert (Kp2 : kept (MEM_STACK + sp + off) s s2) by (eapply kept_trans; [exact B2|apply Kp]).
    assert (V2 : vals s2 sp G r) by (eapply vals_kept; [exact Wf|exact Kp2|lia|exact V]).
    assert (Kn : kept (MEM_STACK + sp + 1) s s2) by (eapply kept_mono; [|exact Kp2]; lia).
    assert (Hn2 := nil_kept _ _ _ Kn Hn).
    destruct (truth w); cbn [Bool.eqb] in F2; [|apply goes_now; split; [exact F2|split; [exact Kn|exact V2]]].
    eapply out_then; [exact (IHs d r st K0 G off1 K2 c2 [] off2 K3 _ sp fs s2 E2 Gr3 W3 Wf1 ltac:(lia) ltac:(unfold CAP; lia) P2 I2 F2 R V2 Hn2)|].
    intros f s3 _ Fl. apply (flows_kept s) in Fl; [|exact Kn]. destruct f as [r3|v]; [|apply goes_now; exact Fl]. destruct Fl as (C1 & C2 & C3).
    assert (I3 : inv s3) by (eapply inv_kept; [exact I|exact C2|lia]). cbn [app] in C3.
    eapply out_then; [eapply seq_sim; [exact IHs|exact E3|exact Gr|exact W4|exact T3|lia|unfold CAP; lia|exact P3|exact I3|exact C1|exact R|exact C3|exact (nil_kept _ _ _ C2 Hn)]|].
    intros f s4 _ Fl. apply (flows_kept s) in Fl; [|exact C2]. destruct f as [r4|v]; [|apply goes_now; exact Fl]. destruct Fl as (D1' & D2' & D3').
    assert (I4 : inv s4) by (eapply inv_kept; [exact I|exact D2'|lia]). cbn [app] in D3'.
    eapply out_goes; [eapply do_jump; [exact W5|exact I4|exact D1']|]. intros s5 (F1 & F5).
    assert (K5 : kept (MEM_STACK + sp + 1) s s5) by (eapply kept_trans; [exact D2'|apply F5]).
    assert (I5 : inv s5) by (eapply inv_kept; [exact I|exact K5|lia]).
    assert (V5 : vals s5 sp G r4) by (eapply vals_kept; [exact Wf|apply (F5 (MEM_STACK + sp + off))|lia|exact D3']).
    eapply out_weaken; [exact (IHl d r4 cd post st K0 G off K pos c1 a off1 K2 c2 off2 K3 c3 off3 K4 sp fs s5 E1 E2 E3 Gr W0 Wf Lo Cap0 P1 P2 P3 I5 F1 R V5 (nil_kept _ _ _ K5 Hn))|].
    intros f s6 _ Fl. eapply flows_kept; [exact K5|exact Fl].
  Qed.

  (** *** Functions *)
  Lemma gargs_acc {X} (l : list (ident * X)) : forall a acc, gargs l a acc = gargs l a [] ++ acc.
  Proof.
    induction l as [|[z o] l IH]; intros a acc; cbn [gargs]; [reflexivity|]. rewrite IH, (IH _ [_]), <- app_assoc. reflexivity.
  Qed.
  Lemma args_vals s sp l : forall vs a, MEM_STACK <= a -> Forall (fun v => small v = true) (argvals l vs) ->
    (forall i v, nth_error (argvals l vs) i = Some v -> holds s (a + sp + N.of_nat i) (val_of v)) -> vals s sp (gargs l a []) (bind_args l vs).
  Proof.
    induction l as [|[z o] l IH]; intros vs a La Sm H; cbn [gargs bind_args]; [constructor|]. rewrite gargs_acc. cbn [argvals] in *. inversion_clear Sm as [|? ? S1 S2].
    apply Forall2_app.
    - apply IH; [lia|exact S2|]. intros i v E. specialize (H (S i) v E). replace (a + 1 + sp + N.of_nat i) with (a + sp + N.of_nat (S i)) by lia. exact H.
    - constructor; [|constructor]. split; [reflexivity|]. split; [reflexivity|]. split; [exact S1|]. cbn [fst snd v_addr].
      rewrite phys_stack by lia. specialize (H 0%nat _ eq_refl). rewrite N.add_0_r in H. exact H.
  Qed.
  Lemma args_wf K0 l : forall off acc, 1 <= off -> wfG K0 acc off -> wfG K0 (@gargs (option value) l (MEM_STACK + off) acc) (off + len l).
  Proof.
    induction l as [|[z o] l IH]; intros off acc Lo Wf; cbn [gargs]; [rewrite len_nil, N.add_0_r; exact Wf|]. rewrite len_cons.
    replace (MEM_STACK + off + 1) with (MEM_STACK + (off + 1)) by lia. replace (off + (1 + len l)) with (off + 1 + len l) by lia. apply IH; [lia|]. apply wfG_push; auto using K1; discriminate.
  Qed.
  Lemma globals_wf K0 off : wfG K0 G0 off.
  Proof.
    pose proof EXM as EX. assert (Lt : forall g e, glob_rel KF g e -> v_addr (snd g) < len KF).
    { intros g e (_ & _ & _ & _ & H). assert (Hn : nth_error KF (N.to_nat (v_addr (snd g))) <> None) by congruence. apply nth_error_Some in Hn. rewrite <- len_eq. lia. }
    split.
    - pose proof HG0 as Hx. clear HF HG0. induction Hx as [|g e G r Hg _ IH]; [constructor|]. constructor; [|exact IH]. left. split; [eauto|apply Hg].
    - replace (onstack G0) with (@nil N); [constructor|]. unfold onstack, addrs. pose proof HG0 as Hx. clear HF HG0. induction Hx as [|g e G r Hg _ IH]; [reflexivity|]. cbn [map filter]. rewrite <- IH.
      replace (MEM_STACK <=? v_addr (snd g)) with false by (symmetry; apply N.leb_gt; specialize (Lt _ _ Hg); lia). reflexivity.
  Qed.
  Lemma globals_vals s sp : inv s -> vals s sp G0 (CompSpec.globals p).
  Proof.
    intros (_ & _ & _ & [_ I] & _). pose proof EXM as EX. unfold vals. eapply Forall2_weaken; [|exact HG0]. intros g e (A & B & D & E & F).
    split; [exact A|]. split; [congruence|]. split; [exact E|].
    assert (Hn : nth_error KF (N.to_nat (v_addr (snd g))) <> None) by congruence. apply nth_error_Some in Hn. rewrite <- len_eq in LK.
    rewrite phys_const by lia. specialize (I _ _ F). rewrite N2Nat.id in I. exact I.
  Qed.
  Lemma pb_step n : (forall k, (k < n)%nat -> Ps k) -> Pb n.
  Proof.
    intros HS. destruct n as [|n]; [intros d g vs pos sp fs s; intros; exact Logic.I|]. assert (IHs : Ps n) by (apply HS; lia). clear HS.
    intros d g vs pos sp fs s Hg Hm Sm Hv I A R. change (outcome s (body (S n) d g vs) (back s sp fs)). rewrite body_S.
    destruct (_ <? _)%nat; [exact Logic.I|]. destruct (HF g Hg) as (pre & c & post & K2 & K3 & EC & Gf & Gr & Lm). rewrite Hm in Lm.
    assert (Lp : List.length pre = pos) by (injection Lm as Lm; lia). clear Lm. unfold gfn in Gf. rewrite Lp in Gf.
    destruct (gstmts (sf_body g) _ _ K2 (pos + 1)%nat) as [[[[cb D] off'] K4]|] eqn:Eb; [|discriminate]. cbv zeta in Gf. injection Gf as <- <-.
    assert (W : within pos (ins OP_COPY 0 MEM_STACK 0 0 :: cb ++ (if last_is_ret (map fst (ins OP_COPY 0 MEM_STACK 0 0 :: cb)) then [] else [ins OP_RET 0 0 0 0]))).
    { exists pre, post. split; [exact EC|exact Lp]. }
    assert (Wl := within_len _ _ W). rewrite len_cons, len_app in Wl. pose proof W as W1. apply within_cons in W1. destruct W1 as [_ W1]. apply within_app in W1. destruct W1 as [W1 W2].
    destruct (HP g Hg) as (K0 & Pf). unfold plain_func in Pf. apply andb_true_iff in Pf. destruct Pf as [Pf Pr]. apply andb_true_iff in Pf. destruct Pf as [Pf _].
    apply andb_true_iff in Pf. destruct Pf as [Pf _]. pose proof (room_sp _ _ _ R) as Rs. pose proof STK as Hst. pose proof EXM as EX. pose proof (Nargs g Hg) as Na.
    assert (P0 : phys sp 0 = 0) by (apply phys_const; lia). assert (Ps0 : phys sp MEM_STACK = MEM_STACK + sp) by (apply phys_stack; lia).
    eapply out_goes; [eapply do_copy with (v := VNil) (Q := fun s1 => wrote s (phys sp MEM_STACK) VNil s1 /\ at_ s1 (pos + 1) sp fs);
      [exact W|exact I|exact A|exact R|right; lia|left; lia|lia|lia| |reflexivity|auto]|].
    { rewrite P0. destruct I as (_ & _ & _ & [_ I] & _). exact (I 0%nat VNil Knil). }
    intros s1 (Wr & A1). rewrite Ps0 in Wr.
    assert (Kp : kept (MEM_STACK + sp) s s1) by (eapply kept_wrote; [exact Wr|reflexivity|apply I|lia]).
    assert (I1 : inv s1) by (eapply inv_kept; [exact I|exact Kp|lia]).
    set (G := gargs (sf_args g) (MEM_STACK + 1) [] ++ G0) in *.
    assert (Wf : wfG K0 G (1 + len (sf_args g))).
    { unfold G. rewrite <- gargs_acc. apply args_wf; [lia|]. apply globals_wf. }
    assert (V1 : vals s1 sp G (bind_args (sf_args g) vs ++ CompSpec.globals p)).
    { apply Forall2_app; [|now apply globals_vals]. apply args_vals; [lia|exact Sm|]. intros i v E. specialize (Hv i v E).
      replace (MEM_STACK + 1 + sp + N.of_nat i) with (MEM_STACK + sp + 1 + N.of_nat i) by lia. eapply holds_but; [apply Wr| |exact Hv]. lia. }
    assert (Hn : holds s1 (MEM_STACK + sp) VNil) by (now apply holds_wrote in Wr).
    assert (Q : ends_as s1 sp fs (pos + 1 + List.length cb) G (exec n d (bind_args (sf_args g) vs ++ CompSpec.globals p) (Block (sf_body g)))).
    { apply (IHs d _ (Block (sf_body g)) K0 G (1 + len (sf_args g)) K2 cb [] (1 + len (sf_args g)) K4 (pos + 1)%nat sp fs s1); auto; [|lia|unfold CAP; lia].
      cbn [CompGen.gstmt]. rewrite <- len_eq. rewrite Eb. reflexivity. }
    eapply out_then; [exact Q|]. intros f s2 Ex Fl. destruct f as [r2|v]; [|apply goes_now].
    - destruct Fl as (B1 & B2 & B3). pose proof (gstmts_end fl text fns KF LK K1 K0 (sf_body g)) as Te.
      assert (T : tail_ok (sf_body g) cb).
      { rewrite len_eq in Eb. eapply Te; [|exact Eb|exact Gr|exact Wf|lia|exact Pf]. apply Forall_forall. intros st _. intros. eapply gstmt_end; eauto using K1. }
      destruct (last_is_ret _) eqn:Lr.
      + exfalso. assert (En : ends (ins OP_COPY 0 MEM_STACK 0 0 :: cb) = true) by exact Lr. apply ends_step in En; [|reflexivity]. destruct En as [En _]. apply T in En.
        rewrite En in Pr. cbn [negb] in Pr. rewrite orb_false_r in Pr. eapply returns_back; [exact Pr|exact Ex].
      + assert (I2 : inv s2) by (eapply inv_kept; [exact I1|exact B2|lia]). cbn [outcome].
        eapply goes_weaken; [eapply do_ret with (v := Null); [exact W2|exact I2|exact B1|exact R|exact (nil_kept _ _ _ B2 Hn)|reflexivity]|].
        intros s3 (J1 & J2 & J3 & J4). split; [exact J1|]. split; [|split; [exact J3|exact J4]].
        eapply kept_trans; [exact Kp|]. eapply kept_trans; [|exact J2]. eapply kept_mono; [|exact B2]. lia.
    - destruct Fl as (J1 & J2 & J3 & J4). split; [exact J1|]. split; [|split; [exact J3|exact J4]]. eapply kept_trans; [exact Kp|exact J2].
  Qed.

  Lemma all_steps n : Pe n /\ Ps n /\ Pl n /\ Pb n.
  Proof.
    induction n as [n IH] using (well_founded_induction lt_wf).
    assert (HE : forall k, (k < n)%nat -> Pe k) by (intros k Hk; apply (IH k Hk)). assert (HS : forall k, (k < n)%nat -> Ps k) by (intros k Hk; apply (IH k Hk)).
    assert (HL : forall k, (k < n)%nat -> Pl k) by (intros k Hk; apply (IH k Hk)). assert (HB : forall k, (k < n)%nat -> Pb k) by (intros k Hk; apply (IH k Hk)).
    split; [now apply pe_step|]. split; [now apply ps_step|]. split; [now apply pl_step|now apply pb_step].
  Qed.
  Lemma body_sim n : Pb n. Proof. apply all_steps. Qed.
End SIM.
