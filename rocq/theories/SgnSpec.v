(** C118, C119: what right passphrases, keys in hand and due signatures are, without the code *)
Require Import List NArith.
From Verif Require Import BytesLib EngineModel SigModel SgnModel.
Import ListNotations.
Open Scope N_scope.

Section SPEC.
  Variables (get_addr : bytes -> addr) (derive : bytes -> nat -> bytes * bytes) (finger_print : bytes -> bytes) (cfg : config).

  (** A passphrase is right for an account with the addresses [l]: the finger print is that of the account, if it has a passphrase, and the first key is the one of
      the first address, if there is one already *)
  Definition right (l : list addr) (p : bytes) : Prop :=
    (c_with_passphrase cfg = true -> finger_print p = c_finger_print cfg) /\ (forall a, nth_error l 0 = Some a -> get_addr (snd (derive p 0)) = a).
  (** no keys in memory *)
  Definition closed (w : wallet) : Prop := w_keypairs w = [] /\ w_map w = [].
  (** the keys of the passphrase [p] in memory *)
  Definition address_of (p : bytes) (i : nat) : addr := get_addr (snd (derive p i)).
  Definition has (p : bytes) (a : addr) : Prop := exists i, (i < c_num_addresses cfg)%nat /\ address_of p i = a.
  Definition opened (p : bytes) (w : wallet) : Prop :=
    w_addresses w = map (address_of p) (seq 0 (c_num_addresses cfg)) /\ w_keypairs w = map (derive p) (seq 0 (c_num_addresses cfg))
    /\ (forall a i, lookup (w_map w) a = Some i -> (i < c_num_addresses cfg)%nat /\ address_of p i = a) /\ (forall a, has p a -> lookup (w_map w) a <> None).
  (** no two passphrases with the same first address but other keys *)
  Definition no_twins : Prop := forall p q, address_of p 0 = address_of q 0 -> forall i, derive p i = derive q i.

  (** the passphrase that comes with an action *)
  Definition carries (a : action) (p : bytes) : Prop :=
    match a with
    | AUnlock q => q = p
    | ASignOff _ o | AComplete _ o | APerform _ o => o_passphrase o = Some p
    | _ => False
    end.
  (** actions that need a signature *)
  Definition signs (a : action) : Prop := match a with ASignMsg _ _ | ASignOff _ _ | AComplete _ _ | APerform _ _ => True | _ => False end.

  (** A transaction without signatures *)
  Definition fresh (t : txn) : Prop :=
    t_solutions t = [] /\ (forall i, In i (t_inputs t) -> in_solution i = NO_SOLUTION /\ N.testbit (in_flags i) 0 = false)
    /\ (forall o, In o (t_execute t) -> op_solution o = NO_SOLUTION).
  (** a contract that takes the signature of [o] alone *)
  Definition takes (c : contract) (o : addr) : Prop :=
    match c with CPubKey a => a = o | CMultiSig m => ms_required m = 1 /\ In o (ms_owners m) | COther => False end.
  (** whose signature an input needs according to the options *)
  Definition signer (opts : options) (a o : addr) : Prop := (lookup (o_owner_map opts) a = None /\ o = a) \/ lookup (o_owner_map opts) a = Some o.
  Definition may_spend (contracts : addr -> option contract) (opts : options) (p : bytes) (a : addr) : Prop :=
    (lookup (o_owner_map opts) a = None /\ has p a) \/ (exists o c, lookup (o_owner_map opts) a = Some o /\ has p o /\ contracts a = Some c /\ takes c o).
  Definition may_act (contracts : addr -> option contract) (p : bytes) (u : addr) : Prop :=
    has p u /\ forall c, contracts u = Some c -> takes c u.

  (** [t] does what was asked for, and nothing else *)
  Definition asked (w : wallet) (opts : options) (r : request) (t : txn) : Prop :=
    match r with
    | Send amount dst currency => t_outputs t = [mk_output dst currency amount (o_memo opts)] /\ t_execute t = [] /\ t_deploy t = None
    | SendMany l currency => t_outputs t = map (fun x => mk_output (fst x) currency (snd x) (o_memo opts)) l /\ t_execute t = [] /\ t_deploy t = None
    | SendFrom amount dst src currency => t_outputs t = [mk_output dst currency amount (o_memo opts)] /\ t_execute t = [] /\ t_deploy t = None
    | Deploy code _ => t_outputs t = [] /\ t_execute t = [] /\ t_deploy t = Some code
    | Execute a call u => t_outputs t = [] /\ t_deploy t = None /\
        exists user k, t_execute t = [mk_op a call None user k] /\ (forall i, u = Some i -> exists x, nth_error (w_addresses w) i = Some x /\ user = Some x) /\ (u = None -> user = o_user opts)
    | Deposit a call amount currency => t_outputs t = [] /\ t_deploy t = None /\ exists k, t_execute t = [mk_op a call (Some (currency, amount)) (o_user opts) k]
    end.
End SPEC.
