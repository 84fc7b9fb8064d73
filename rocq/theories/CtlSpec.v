(** C116: prices that count, and medians, without the code *)
Require Import List Arith NArith ZArith QArith Permutation.
From Verif Require Import CtlModel.
Import List ListNotations.
Open Scope Q_scope.

(** The source [k] tells the price [p]: a positive number with the right labels; for bid and ask, the price in the middle *)
Inductive tells : source -> content -> Q -> Prop :=
| tells_spot k p : k <> Swissquote -> 0 < p -> tells k (Spot true (Some p)) p
| tells_quote b a : 0 < b -> 0 < a -> b <= a * (11 # 10) -> tells Swissquote (BidAsk (Some b) (Some a)) ((b + a) / 2).
(** ... in a file that is at most a day old *)
Definition counts (s : state) (now : Z) (k : source) (p : Q) : Prop := exists t c, files s k = Some (t, c) /\ (now <= t + 86400)%Z /\ tells k c p.
(** The prices that count, of some sources *)
Inductive quotes (s : state) (now : Z) : list source -> list Q -> Prop :=
| quotes_nil : quotes s now [] []
| quotes_in k ks p l : counts s now k p -> quotes s now ks l -> quotes s now (k :: ks) (p :: l)
| quotes_out k ks l : (forall p, ~ counts s now k p) -> quotes s now ks l -> quotes s now (k :: ks) l.
(** how many are between [a] and [b] *)
Definition between (a b x : Q) : bool := Qle_bool a x && Qle_bool x b.
Definition majority (a b : Q) (l : list Q) : Prop := (List.length l < 2 * List.length (filter (between a b) l))%nat.
(** the median: the middle one, or the mean of the two in the middle *)
Inductive median : list Q -> Q -> Prop :=
| median_odd l lo x hi : Permutation l (lo ++ x :: hi) -> List.length lo = List.length hi -> (forall y, In y lo -> y <= x) -> (forall y, In y hi -> x <= y) -> median l x
| median_even l lo x y hi : Permutation l (lo ++ x :: y :: hi) -> List.length lo = List.length hi -> (forall z, In z lo -> z <= x) -> x <= y -> (forall z, In z hi -> y <= z) -> median l ((x + y) / 2).
Definition gold_sources := [GoldApi; Swissquote; GoldpriceDev].
Definition mmx_sources := [Safetrade; NonkycT; NonkycC].
