(** What is claimed about the peers of the router (C120), from the events alone. *)
Require Import List Arith NArith ZArith Bool String.
From Verif Require Import PrsModel.
Import ListNotations.
Open Scope N_scope.

(** The connection of client [c] is open (established and not closed since), or is being opened to the host [h]. *)
Definition open (s : st) (c : N) : Prop := exists h, In (c, (h, true)) (conns s).
Definition opening (s : st) (c : N) (h : string) : Prop := In (c, (h, false)) (conns s).

(** The event begins the connection of client [c], for which the challenge [m] is drawn. *)
Definition begins (e : event) (c m : N) : Prop := (exists h, e = Accept c h m) \/ e = Up c m.

(** Whether the last answer of client [c] on its height, if there is one in [l], says that it is synced *)
Definition said_synced (c : N) (l : list (Z * event)) : bool :=
  fold_left (fun b e => match snd e with Answer c' (Synced v) => if c' =? c then match v with Some _ => true | None => false end else b | _ => b end) l false.

(** When the last answer of client [c] in [l] came; 0 if there is none *)
Definition last_heard (c : N) (l : list (Z * event)) : Z := fold_left (fun t e => match snd e with Answer c' _ => if c' =? c then fst e else t | _ => t end) l 0%Z.

(** [post] is the part of [l] after the begin of the connection of [c], at time [t] with challenge [m] *)
Definition since (c m : N) (t : Z) (l post : list (Z * event)) : Prop := exists pre e, l = pre ++ (t, e) :: post /\ begins e c m.

(** The address is banned: it is on the list, and no open connection has it. *)
Definition banned (s : st) (a : string) : Prop := In a (blocked s) /\ forall c p, open s c -> In (c, p) (peers s) -> p_addr p <> a.

Definition kicks (l : list (Z * event)) : nat := List.length (filter (fun e => match snd e with Kick _ => true | _ => false end) l).

(** Addresses that are not told to others; the text begins with *)
Definition begins_with (p a : string) : Prop := exists r, a = (p ++ r)%string.
Definition unusable (a : string) : Prop := a = ""%string \/ a = "0.0.0.0"%string \/ begins_with "127." a.
Definition local (a : string) : Prop := unusable a \/ begins_with "10." a \/ begins_with "192.168." a.

(** The address [a] is known, or that of a peer *)
Definition met (s : st) (a : string) : Prop := In a (known s) \/ exists c p, In (c, p) (peers s) /\ p_addr p = a.

(** At [now], a connection that began at [t] and was last heard of at [last] has had its time *)
Definition late (cfg : config) (now t last : Z) (outbound : bool) : Prop :=
  (0 < conn_timeout cfg /\ conn_timeout cfg < now - Z.max last t)%Z \/ (disc_interval cfg <> 0 /\ outbound = false /\ disc_interval cfg < (now - t) / 1000)%Z.
