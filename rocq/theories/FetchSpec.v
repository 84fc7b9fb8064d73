(** What is expected of blocks that were got from other nodes, in terms of what was sent to whom and what came back. *)
Require Import List NArith.
Require Import Verif.FetchModel.
Import ListNotations.
Open Scope N_scope.

(** replies come from the one who was asked *)
Definition from_asked (tr : list obs) : Prop :=
  forall a from id r now pick b c q, tr = a ++ In (EvReply from id r now pick) :: b -> List.In (Out c id q) a -> c = from.
(** a node that has block [b] at the height and answers truthfully or not at all *)
Definition truthful (b : block) (q : ask) (r : reply) : Prop :=
  r = RError \/
  match q with
  | AskHash => r = RHash (Some (k_hash b, k_content b))
  | AskBlock h => r = RBlock (if h =? k_hash b then Some b else None)
  end.
Definition honest (b : block) (tr : list obs) (c : N) : Prop :=
  forall pre id q rest r now pick, tr = pre ++ In (EvReply c id r now pick) :: rest -> List.In (Out c id q) pre -> truthful b q r.
(** those who replied to something *)
Definition replied (tr : list obs) (c : N) : Prop := exists id r now pick, List.In (In (EvReply c id r now pick)) tr.

(** the nodes that are connected and synced after what happened *)
Definition synced_after (synced : list N) (l : list event) : list N :=
  fold_left (fun s e => match e with EvSynced c => if existsb (N.eqb c) s then s else c :: s | EvLost c => filter (fun x => negb (x =? c)) s | _ => s end) l synced.
(** [c] replied to one of the requests without a block *)
Definition replied_without (tr : list obs) (c : N) : Prop :=
  exists a id q r now pick b, tr = a ++ In (EvReply c id r now pick) :: b /\ List.In (Out c id q) a /\ (forall x, r <> RBlock (Some x)).
(** [c] replied to one of the requests with this block *)
Definition replied_with (tr : list obs) (c : N) (x : block) : Prop :=
  exists a id q now pick b, tr = a ++ In (EvReply c id (RBlock (Some x)) now pick) :: b /\ List.In (Out c id q) a.
