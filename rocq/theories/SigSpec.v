(** Signatures in a solution *)
Require Import List NArith Bool.
From Verif Require Import BytesLib EngineModel SigModel.
Import ListNotations.
Open Scope N_scope.

Section CRYPTO.
  Variable get_addr : bytes -> addr.
  Variable verify : bytes -> bytes -> bytes -> bool.

  (** the keys and signatures that a solution brings along *)
  Definition signatures (sol : solution) : list (bytes * bytes) :=
    match sol with
    | PubKey pk sg => [(pk, sg)]
    | MultiSig _ l => flat_map (fun e => match snd e with Some (PubKey pk sg) => [(pk, sg)] | _ => [] end) l
    | Other => []
    end.
  (** the key of [a] has signed the transaction *)
  Definition signed_by (sol : solution) (txid : bytes) (a : addr) : Prop :=
    exists pk sg, In (pk, sg) (signatures sol) /\ get_addr pk = a /\ verify pk sg txid = true.
  (** a std::map has no key twice *)
  Definition a_map (sol : solution) : Prop := match sol with MultiSig _ l => NoDup (map fst l) | _ => True end.
  (** everything in it is a correct signature of the owner under whose address it is *)
  Definition all_correct (m : multisig) (txid : bytes) (sol : solution) : Prop :=
    match sol with
    | PubKey pk sg => In (get_addr pk) (ms_owners m) /\ verify pk sg txid = true /\ ms_required m = 1
    | MultiSig req l => req = ms_required m /\
        Forall (fun e => In (fst e) (ms_owners m) /\ exists pk sg, snd e = Some (PubKey pk sg) /\ get_addr pk = fst e /\ verify pk sg txid = true) l
    | Other => False
    end.
End CRYPTO.
