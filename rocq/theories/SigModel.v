(** Who may spend: the checks of solutions by contracts, /repo/src/contract/PubKey.cpp and MultiSig.cpp *)
Require Import List NArith Bool.
From Verif Require Import BytesLib EngineModel.
Import ListNotations.
Open Scope N_scope.

(** interface/Solution.vni, interface/solution/PubKey.vni, MultiSig.vni.  [Other]: a solution of another type.  In [MultiSig] a std::map from addresses to
    solutions, of which any may be null. *)
Inductive solution :=
| PubKey (pubkey signature : bytes)
| MultiSig (num_required : N) (solutions : list (addr * option solution))
| Other.
(** interface/contract/MultiSig.vni: std::set<addr_t> and uint32_t *)
Record multisig := mk_multisig { ms_version : N; ms_required : N; ms_owners : list addr }.
(** src/Contract.cpp:14-17, src/contract/MultiSig.cpp:19-22 *)
Definition multisig_valid (m : multisig) : bool :=
  (ms_version m =? 0) && (0 <? ms_required m) && (ms_required m <=? N.of_nat (length (ms_owners m))).
Definition owner (m : multisig) (a : addr) : bool := existsb (addr_eqb a) (ms_owners m).

Section CRYPTO.
  (** pubkey_t::get_addr (src/pubkey_t.cpp) and signature_t::verify (src/signature_t.cpp) *)
  Variable get_addr : bytes -> addr.
  Variable verify : bytes -> bytes -> bytes -> bool.   (** public key, signature, transaction id *)

  (** src/contract/PubKey.cpp:47-66; [false]: invalid_solution is thrown *)
  Definition pubkey_validate (address : addr) (sol : option solution) (txid : bytes) : bool :=
    match sol with
    | Some (PubKey pk sg) => if negb (addr_eqb (get_addr pk) address) then false else verify pk sg txid
    | _ => false
    end.
  (** src/contract/MultiSig.cpp:64-91: the loop; [None]: invalid_solution is thrown *)
  Fixpoint count_signatures (m : multisig) (txid : bytes) (version : N) (l : list (addr * option solution)) (count : N) : option N :=
    match l with
    | [] => Some count
    | (a, sol) :: l =>
      if (1 <=? version) && negb (owner m a) then None
      else if owner m a then
        match sol with
        | Some (PubKey pk sg) =>
          if negb (addr_eqb (get_addr pk) a) then None
          else if negb (verify pk sg txid) then None
          else count_signatures m txid version l (count + 1)
        | _ => if 1 <=? version then None else count_signatures m txid version l count
        end
      else count_signatures m txid version l count
    end.
  (** src/contract/MultiSig.cpp:43-103 *)
  Definition multisig_validate (m : multisig) (sol : option solution) (txid : bytes) (version : N) : bool :=
    match sol with
    | Some (PubKey pk sg) =>
      if negb (ms_required m =? 1) then false
      else if owner m (get_addr pk) then verify pk sg txid else false
    | Some (MultiSig req l) =>
      if (1 <=? version) && negb (req =? ms_required m) then false
      else match count_signatures m txid version l 0 with
           | Some count => negb (count <? ms_required m)
           | None => false
           end
    | _ => false
    end.
End CRYPTO.
