(** C113: contracts deployed, contracts owned, and the history of a contract. *)
Require Import List Arith NArith ZArith Bool Lia.
From Verif Require Import BytesLib OrdLib EngineModel EngineUpper HistModel HistProofs OfqModel FrkProofs LstModel LstSpec LstProofs.
From Verif Require CtrModel.
Import List ListNotations.
Open Scope N_scope.

Section ALL.
  Variables (plot_nft offer time_lock escrow pubkey_hash zero_addr : addr).
  Notation replay := (replay plot_nft offer time_lock escrow pubkey_hash zero_addr).
  Notation of_kind := (of_kind pubkey_hash).
  Notation first_owner := (first_owner plot_nft offer time_lock escrow zero_addr).
  Variable chain : list block.
  Hypothesis R : rising 0 chain.

  Lemma owner_same c : owner_of plot_nft offer time_lock escrow zero_addr c = first_owner c.
  Proof. destruct c as [a|b args|h]; try reflexivity. unfold owner_of, LstSpec.first_owner, get_owner, arg_owner, get_arg. cbn [existsb]. rewrite orb_false_r, orb_assoc. reflexivity. Qed.
  Lemma flat_flat {A B C} (f : A -> list B) (g : B -> list C) l : flat_map g (flat_map f l) = flat_map (fun x => flat_map g (f x)) l.
  Proof. induction l as [|x l IH]; [reflexivity|]. cbn. rewrite flat_map_app, IH. reflexivity. Qed.
  Lemma flat_mapped {A B C} (f : A -> B) (g : B -> list C) l : flat_map g (map f l) = flat_map (fun x => g (f x)) l.
  Proof. induction l as [|x l IH]; [reflexivity|]. cbn. rewrite IH. reflexivity. Qed.
  Lemma map_flat {A B C} (f : A -> list B) (g : B -> C) l : map g (flat_map f l) = flat_map (fun x => map g (f x)) l.
  Proof. induction l as [|x l IH]; [reflexivity|]. cbn. rewrite map_app, IH. reflexivity. Qed.
  Lemma flat_same {A B} (f g : A -> list B) l : (forall x, f x = g x) -> flat_map f l = flat_map g l.
  Proof. intros E. induction l as [|x l IH]; [reflexivity|]. cbn. rewrite E, IH. reflexivity. Qed.
  Definition row (x : addr * contract) : addr * addr := (fst x, type_of pubkey_hash (snd x)).
  Lemma rows_by a : flat_map (fun b => flat_map (fun t => d_adds pubkey_hash t a) (live b)) chain = map row (deployed_by chain a).
  Proof.
    unfold deployed_by, effective. rewrite flat_flat, map_flat. apply flat_same. intros b. rewrite flat_mapped, map_flat. apply flat_same. intros t. cbn [snd]. unfold d_adds, adds.
    destruct (t_sender t) as [s|], (t_deploy t); try reflexivity. destruct (addr_eqb s a); reflexivity.
  Qed.
  Lemma rows_owned a : flat_map (fun b => flat_map (fun t => o_adds plot_nft offer time_lock escrow pubkey_hash zero_addr t a) (live b)) chain = map row (made_for first_owner chain a).
  Proof.
    unfold made_for, effective. rewrite flat_flat, map_flat. apply flat_same. intros b. rewrite flat_mapped, map_flat. apply flat_same. intros t. cbn [snd]. unfold o_adds, adds.
    destruct (t_deploy t) as [c|]; [|reflexivity]. rewrite owner_same. destruct (first_owner c) as [o|]; [|reflexivity]. destruct (addr_eqb o a); reflexivity.
  Qed.
  Lemma rows_calls a : flat_map (fun b => flat_map (fun t => flat_map (op_adds (b_height b) t a) (t_execute t)) (live b)) chain = calls_of chain a.
  Proof.
    unfold calls_of, effective. rewrite flat_flat. apply flat_same. intros b. rewrite flat_mapped. apply flat_same. intros t. cbn [fst snd]. apply flat_same. intros o. unfold op_adds, adds.
    destruct (o_exec o); reflexivity.
  Qed.
  Lemma tables_ok : exists p, le2 p (top, top) /\
    INV (replay chain) p (fun a => map row (deployed_by chain a)) (fun a => map row (made_for first_owner chain a)) (fun a => calls_of chain a).
  Proof.
    destruct (chain_step plot_nft offer time_lock escrow pubkey_hash zero_addr chain 0 empty (fun _ => []) (fun _ => []) (fun _ => [])) as (p & LE & I).
    - split; [|split]; apply P_nil.
    - unfold top. lia.
    - exact R.
    - exists p. split; [exact LE|]. eapply INV_ext; [| | |exact I]; intros a; cbn [app]; [apply rows_by | apply rows_owned | apply rows_calls].
  Qed.
  Lemma in_map_eq (m : list (key * (addr * addr))) p (f : addr -> list (addr * contract)) addresses ty : P m p (fun a => map row (f a)) -> le2 p (top, top) ->
    of_table m addresses ty = flat_map (fun a => map fst (filter (fun x => of_kind ty (snd x)) (f a))) addresses.
  Proof.
    intros HP LE. unfold of_table. apply flat_same. intros a. rewrite (P_first m p _ a HP LE). induction (f a) as [|(i, c) l IH]; [reflexivity|]. cbn [map filter].
    change (snd (row (i, c))) with (kind_of pubkey_hash c). unfold LstSpec.of_kind at 1. cbn [snd].
    destruct ty as [h|]; [|cbn [map]; f_equal; exact IH]. destruct (addr_eqb (kind_of pubkey_hash c) h); [cbn [map]; f_equal|]; exact IH.
  Qed.

  (** The contracts deployed by some addresses: all of them and nothing else, in the order of the chain for each address. *)
  Theorem C113_deployed :
    forall addresses kind, get_contracts_by (replay chain) addresses kind = flat_map (fun a => map fst (filter (fun x => of_kind kind (snd x)) (deployed_by chain a))) addresses.
  Proof. intros addresses kind. destruct tables_ok as (p & LE & A & _ & _). exact (in_map_eq _ p _ addresses kind A LE). Qed.
  (** The contracts owned by some addresses: all that were deployed with one of them as the owner. *)
  Theorem C113_owned :
    forall addresses kind, get_contracts_owned_by (replay chain) addresses kind = flat_map (fun a => map fst (filter (fun x => of_kind kind (snd x)) (made_for first_owner chain a))) addresses.
  Proof. intros addresses kind. destruct tables_ok as (p & LE & _ & A & _). exact (in_map_eq _ p _ addresses kind A LE). Qed.
  (** The history of a contract: the calls named in transactions that took effect, from the first on, or from the last one back. *)
  Theorem C113_history :
    forall a limit recent, get_exec_history (replay chain) a limit recent = firstn (N.to_nat (size limit)) (if recent then rev (calls_of chain a) else calls_of chain a).
  Proof.
    intros a limit recent. destruct tables_ok as (p & LE & _ & _ & A). unfold get_exec_history. rewrite take_firstn. f_equal.
    destruct recent; [apply (P_last _ p _ a A LE) | apply (P_first _ p _ a A LE)].
  Qed.
End ALL.
Print Assumptions C113_deployed.
Print Assumptions C113_owned.
Print Assumptions C113_history.

(** Addresses for the examples *)
Definition ad (n : N) : addr := repeat n 32.
Definition ex_op (a : option addr) (n : N) : op := mk_op a true [n] [] (Some (ad 5)) None.
Definition ex_chain : list block :=
  [mk_block 3 4 [mk_tx (ad 10) (Some (ad 5)) false (Some (Executable (ad 1) [ad 5])) [ex_op None 1];
                 mk_tx (ad 11) (Some (ad 5)) true (Some (Executable (ad 1) [ad 5])) [];
                 mk_tx (ad 12) (Some (ad 6)) false (Some (Executable (ad 4) [ad 7; ad 8; ad 5])) []];
   mk_block 9 1 [mk_tx (ad 13) (Some (ad 5)) false (Some (PubKey (ad 6))) [ex_op (Some (ad 10)) 2; ex_op (Some (ad 10)) 3]]].
Definition ex_state := replay (ad 1) (ad 2) (ad 3) (ad 4) (ad 9) (ad 0) ex_chain.
Example C113_case :
  rising 0 ex_chain /\ get_contracts_by ex_state [ad 5; ad 6] None = [ad 10; ad 13; ad 12] /\ get_contracts_by ex_state [ad 5] (Some (ad 1)) = [ad 10] /\
  get_contracts_owned_by ex_state [ad 5] None = [ad 10; ad 12] /\ get_contracts_owned_by ex_state [ad 6; ad 7] None = [ad 13] /\
  map l_method (get_exec_history ex_state (ad 10) 2 true) = [[3]; [2]] /\ map l_method (get_exec_history ex_state (ad 10) (-1) false) = [[1]; [2]; [3]].
Proof. split; [cbn; repeat split; vm_compute; congruence|]. vm_compute. repeat split. Qed.

(** A plot NFT that was given away: its variables have the new owner, the node still lists it for the old one only. *)
Definition owner_after (calls : list (CtrModel.env * CtrModel.PlotNft.method)) (c : CtrModel.ctr CtrModel.PlotNft.vars) : option addr :=
  match fold_left (fun r x => match r with Some c => match CtrModel.PlotNft.exec (snd x) (fst x) c with Some (_, c) => Some c | None => None end | None => None end) calls (Some c) with
  | Some c => Some (CtrModel.PlotNft.owner (CtrModel.c_vars c)) | None => None end.
Definition nft_chain : list block :=
  [mk_block 3 4 [mk_tx (ad 10) (Some (ad 5)) false (Some (Executable (ad 1) [ad 5])) []];
   mk_block 9 1 [mk_tx (ad 13) (Some (ad 5)) false None [mk_op (Some (ad 10)) true [116] [] (Some (ad 5)) None]]].
Theorem C113_owner_refuted :
  exists chain calls c0,
    rising 0 chain /\ CtrModel.c_vars c0 = CtrModel.PlotNft.init (ad 5) /\
    map (fun x => CtrModel.e_user (fst x)) calls = map l_user (calls_of chain (ad 10)) /\
    owner_after calls c0 = Some (ad 6) /\
    get_contracts_owned_by (replay (ad 1) (ad 2) (ad 3) (ad 4) (ad 9) (ad 0) chain) [ad 5] None = [ad 10] /\
    get_contracts_owned_by (replay (ad 1) (ad 2) (ad 3) (ad 4) (ad 9) (ad 0) chain) [ad 6] None = [].
Proof.
  exists nft_chain, [(CtrModel.mk_env (Some (ad 5)) 9 None (ad 10) 0, CtrModel.PlotNft.Transfer (ad 6))], (CtrModel.mk_ctr (CtrModel.PlotNft.init (ad 5)) (fun _ => 0) [] []).
  split; [cbn; repeat split; vm_compute; congruence|]. vm_compute. repeat split.
Qed.
Print Assumptions C113_owner_refuted.
