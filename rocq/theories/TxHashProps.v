(** C14: the id of a transaction binds everything in it, in particular the JSON-like arguments of calls and contracts. *)
Require Import List Arith NArith ZArith Lia Bool String.
From Verif Require Import BytesLib TxHashModel TxHashSpec TxHashProofs.
Import ListNotations.
Open Scope N_scope.

(** Different operations have different hash pre-images, from transaction version 1 on. *)
Theorem C14_operation_preimage : forall th ver a b, types_distinct th -> 1 <= ver -> op_ok a -> op_ok b ->
  op_bytes th ver a = op_bytes th ver b -> a = b.
Proof.
  intros th ver a b T V Ha Hb E. pose proof (pf_op th T ver V a b [] [] Ha Hb) as P. rewrite E in P. now apply P.
Qed.
Print Assumptions C14_operation_preimage.

(** The same for contracts of every type. *)
Theorem C14_contract_preimage : forall th ver a b, types_distinct th -> 1 <= ver -> contract_ok a -> contract_ok b ->
  contract_bytes th ver a = contract_bytes th ver b -> a = b.
Proof.
  intros th ver a b T V Ha Hb E. pose proof (pf_contract th T ver V a b [] [] Ha Hb) as P. rewrite E in P. now apply P.
Qed.
Print Assumptions C14_contract_preimage.

(** Two transactions with the same id are the same in every signed field, unless two different strings hashed for
    them have the same hash (or one hashes to zero): a signature cannot be moved to another transaction. *)
Theorem C14_tx_id_binds : forall th sha t u, types_distinct th -> (forall b, List.length (sha b) = 32%nat) ->
  tx_ok t -> tx_ok u -> 1 <= tx_version t \/ 1 <= tx_version u ->
  tx_id th sha t = tx_id th sha u -> t = u \/ hash_broken th sha t u.
Proof. intros. now apply tx_bound. Qed.
Print Assumptions C14_tx_id_binds.

(** Why the version matters: in version 0 two different calls have one pre-image, whatever the type ids are. *)
Theorem C14_version_0_collides : forall th, exists a b, op_ok a /\ op_ok b /\ a <> b /\ op_bytes th 0 a = op_bytes th 0 b.
Proof.
  intros th. set (u := of_le (cstr "string<>")).
  exists (OExecute {| x_version := 0; x_address := repeat 7 32; x_method := cstr "pay";
                      x_args := [JString []; JULong u; JULong 0]; x_user := None |}),
         (OExecute {| x_version := 0; x_address := repeat 7 32; x_method := cstr "pay";
                      x_args := [JULong u; JULong 0; JString []]; x_user := None |}).
  assert (J : Forall json_ok [JString []; JULong u; JULong 0] /\ Forall json_ok [JULong u; JULong 0; JString []]).
  { split; repeat constructor. }
  split; [|split; [|split]].
  - repeat split; try reflexivity; apply J.
  - repeat split; try reflexivity; apply J.
  - discriminate.
  - unfold op_bytes. apply f_equal. vm_compute. reflexivity.
Qed.
Print Assumptions C14_version_0_collides.

(** instances *)
Fixpoint name_index (s : string) (l : list string) : N :=
  match l with [] => 0 | x :: l => if String.eqb s x then 1 else let i := name_index s l in if i =? 0 then 0 else i + 1 end.
Definition th_ex (s : string) : N := name_index s type_names.
Example C14_ex_types : types_distinct th_ex.
Proof.
  split.
  - intros s. unfold u64, th_ex, type_names. cbn [name_index]. repeat (destruct (String.eqb _ _); [reflexivity|]). reflexivity.
  - intros a b Ha Hb. simpl in Ha, Hb.
    repeat (destruct Ha as [<-|Ha]; [repeat (destruct Hb as [<-|Hb]; [vm_compute; congruence|]); contradiction|]). contradiction.
Qed.
Definition ex_op (l : list json) : op :=
  ODeposit {| x_version := 0; x_address := repeat 7 32; x_method := cstr "pay"; x_args := l; x_user := Some (repeat 9 32) |} (repeat 0 32) 1000.
Definition ex_tx (l : list json) : tx :=
  {| tx_version := 1; tx_expires := 100; tx_fee_ratio := 1024; tx_max_fee := 5000; tx_note := 10; tx_nonce := 42;
     tx_network := cstr "mainnet"; tx_sender := Some (repeat 9 32);
     tx_inputs := [{| io_address := repeat 9 32; io_contract := repeat 0 32; io_amount := 1000; io_memo := None |}];
     tx_outputs := []; tx_execute := [ex_op l];
     tx_deploy := Some (CData 0 (JObject [(cstr "a", JArray [JNull; JBool true]); (cstr "b", JLong (-5)); (cstr "c", JOther [1; 2])])) |}.
Ltac ok := repeat first
  [ exact I | reflexivity | discriminate
  | match goal with
    | |- _ /\ _ => split
    | |- Forall _ [] => apply Forall_nil
    | |- Forall _ (_ :: _) => apply Forall_cons
    | |- json_ok _ => constructor
    end
  | progress cbn
  | progress unfold list_ok, len_ok, txio_ok, op_ok, exec_ok, ex_op, i64 ].
Example C14_ex : tx_ok (ex_tx [JString (cstr "x"); JULong 7]) /\ tx_ok (ex_tx [JULong 7; JString (cstr "x")]) /\
  op_bytes th_ex 1 (ex_op [JString (cstr "x"); JULong 7]) <> op_bytes th_ex 1 (ex_op [JULong 7; JString (cstr "x")]).
Proof.
  split; [|split]; [unfold tx_ok; ok|unfold tx_ok; ok|vm_compute; discriminate].
Qed.
