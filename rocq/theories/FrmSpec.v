(** What a farmer should report, count and sign: read off the history alone *)
Require Import List Arith NArith ZArith Bool.
From Verif Require Import FrmModel.
Import ListNotations.
Open Scope N_scope.

Fixpoint sum {A} (f : A -> N) (l : list A) : N := match l with [] => 0 | x :: r => f x + sum f r end.

(** The last report of harvester [h], unless a check found it more than [timeout] whole seconds old.  A harvester goes by its id, or else by the hash of its name. *)
Definition is_from (hash_name : N -> N) (h : N) (v : info) : bool :=
  match i_id v, i_name v with Some i, _ => i =? h | None, Some n => hash_name n =? h | None, None => false end.
Definition hear (hash_name : N -> N) (timeout : Z) (h : N) (cur : option (Z * info)) (e : Z * event) : option (Z * info) :=
  match snd e with
  | Info v => if is_from hash_name h v then Some (fst e, v) else cur
  | Expire => match cur with Some (t, v) => if (t + (timeout + 1) * 1000000 <=? fst e)%Z then None else cur | None => None end
  | _ => cur
  end.
Definition current (hash_name : N -> N) (timeout : Z) (l : list (Z * event)) (h : N) : option info := option_map snd (fold_left (hear hash_name timeout h) l None).
(** A figure of a harvester, 0 if it is not there *)
Definition of (f : info -> N) (v : option info) : N := match v with Some v => f v | None => 0 end.
(** The entries of a map under a key, added up *)
Definition under {A} (k : N) (f : A -> N) (l : list (N * A)) : N := sum (fun e => if fst e =? k then f (snd e) else 0) l.
Definition bytes_of (n : N) (f : info -> N) (v : info) : N := match i_name v with Some m => if m =? n then f v else 0 | None => 0 end.

(** What became of the partials that were sent for contract [c]: difficulty and answer *)
Fixpoint answers (c : N) (l : list (Z * event)) : list (N * option response) :=
  match l with [] => [] | (_, Response c' d r) :: m => if c' =? c then (d, r) :: answers c m else answers c m | _ :: m => answers c m end.
Definition is_ok (a : N * option response) : bool := match snd a with Some (Valid _ _) => true | _ => false end.
Definition points (a : N * option response) : N := match snd a with Some (Valid p _) => if (0 <? p)%Z then Z.to_N p else fst a | _ => 0 end.
Definition lost (a : N * option response) : N := if is_ok a then 0 else fst a.
(** What a failed partial is counted as: the code the pool gives, or a server error (16) *)
Definition fault (a : N * option response) : option N :=
  match snd a with Some (Valid _ _) => None | Some (Invalid 0) | Some Bad | None => Some 16 | Some (Invalid c) => Some c end.
Definition is_fault (k : N) (a : N * option response) : bool := match fault a with Some c => c =? k | None => false end.
Definition count {A} (p : A -> bool) (l : list A) : N := N.of_nat (length (filter p l)).

(** The last difficulty above 0 that was given for a contract, or 0 *)
Fixpoint last_diff (c : N) (d : N) (l : list (Z * event)) : N :=
  match l with [] => d | (_, Diff c' x) :: m => last_diff c (if (c' =? c) && negb (x =? 0) then x else d) m | _ :: m => last_diff c d m end.

(** All keys and all accounts the wallet gave, in order *)
Fixpoint keys_given (l : list (Z * event)) : list (N * N) := match l with [] => [] | (_, Keys k) :: m => k ++ keys_given m | _ :: m => keys_given m end.
Fixpoint accounts_given (l : list (Z * event)) : list (option N) := match l with [] => [] | (_, Accounts k) :: m => k ++ accounts_given m | _ :: m => accounts_given m end.
Fixpoint first_key (k : N) (l : list (N * N)) : option N := match l with [] => None | (sk, pk) :: r => if pk =? k then Some sk else first_key k r end.
Fixpoint first_some (l : list (option N)) : option N := match l with [] => None | Some a :: _ => Some a | None :: r => first_some r end.
Definition configured (conf : option N) : option N := match conf with Some a => if a =? 0 then None else Some a | None => None end.

(** BlockHeader::is_valid and validate (src/BlockHeader.cpp:15-32, 99-107): the parts that concern the hash, the signature and the reward *)
Definition good_block (bhash : core -> N) (chash : N -> option N -> N) (verify : N -> N -> N -> bool) (b : block) : Prop :=
  b_hash b = bhash (b_core b) /\ b_content b = chash (b_hash b) (b_sig b) /\ (b_amount (b_core b) <> 0 -> b_addr (b_core b) <> None) /\
  exists k r s, b_proof (b_core b) = k :: r /\ b_sig b = Some s /\ verify k (b_hash b) s = true.
