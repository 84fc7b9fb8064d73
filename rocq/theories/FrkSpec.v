(** What farmers rely on when the node tells them about farmed blocks *)
Require Import List Arith NArith ZArith Bool Sorted Permutation.
From Verif Require Import BytesLib EngineModel CtrModel FrkModel.
Import List ListNotations.
Open Scope N_scope.

(** the chain after what happened, newest block first *)
Definition after (c : list blk) (o : op) : list blk :=
  match o with
  | Apply b => b :: c
  | Fail _ _ _ => c
  | Revert _ h | Restart h => filter (fun b => k_height_ b <? h) c
  end.
Definition chain_of (l : list op) : list blk := fold_left after l [].
(** blocks farmed by one of the farmers, at a height or later; the first block of the chain was not farmed *)
Definition farmed_by (farmers : list addr) (since : N) (b : blk) : bool :=
  negb (k_height_ b =? 0) && existsb (addr_eqb (k_farmer b)) farmers && (since <=? k_height_ b).
Definition count_of (c : list blk) (f : addr) : N := N.of_nat (List.length (filter (farmed_by [f] 0) c)).
(** a function that sorts *)
Definition sorts (sort : list (addr * N) -> list (addr * N)) : Prop :=
  forall l, Permutation l (sort l) /\ StronglySorted (fun x y => snd y <= snd x) (sort l).
(** The ranking: no farmer twice, more blocks first, the number of blocks in the chain for each, all farmers of the chain. *)
Record ranks (c : list blk) (l : list (addr * N)) : Prop := mk_ranks {
  rk_once : NoDup (map fst l);
  rk_order : StronglySorted (fun x y => snd y <= snd x) l;
  rk_count : forall f n, In (f, n) l -> n = count_of c f;
  rk_all : forall f, 0 < count_of c f -> In f (map fst l) }.
Definition no_late_failure (o : op) : Prop := match o with Fail true _ _ => False | _ => True end.
Definition total (l : list blk) : N := fold_right (fun b n => k_reward b + n) 0 l.
Definition paid_to (b : blk) : addr := match k_addr b with Some a => a | None => native end.
(** the summary of blocks *)
Record summarizes (l : list blk) (m : summary) : Prop := mk_summarizes {
  sz_number : m_blocks m = N.of_nat (List.length l);
  sz_last : forall b, In b l -> k_height_ b <= m_last m;
  sz_last_is : l <> [] -> exists b, In b l /\ k_height_ b = m_last m;
  sz_total : m_total m = total l;
  sz_once : NoDup (map fst (m_map m));
  sz_map : forall a x, In (a, x) (m_map m) <-> (exists b, In b l /\ paid_to b = a) /\ x = total (filter (fun b => addr_eqb (paid_to b) a) l) }.
