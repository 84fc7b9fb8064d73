(** What a proof of space is, apart from how it is checked: a list of 2^n starting values, split in halves down to single values.  Each value gives a number and some data by the
    first function; two neighbouring halves fit if the number of the right one is the number of the left one plus one, and then give a number and data by the second function. *)
Require Import List Arith NArith.
Import ListNotations.
Open Scope N_scope.

Section Spec.
  Variable F1 : N -> N * list N.
  Variable F2 : list N -> list N -> N * list N.
  Inductive spells : nat -> list N -> N -> list N -> Prop :=
  | single : forall x, spells 0 [x] (fst (F1 x)) (snd (F1 x))
  | halves : forall n l r yl ml yr mr, spells n l yl ml -> spells n r yr mr -> yr = yl + 1 ->
      spells (S n) (l ++ r) (fst (F2 ml mr)) (snd (F2 ml mr)).

  (** the only proof of that size that can be made of the values in [xs], each used any number of times *)
  Definition only_proof (n : nat) (xs : list N) : Prop := forall l y m, spells n l y m -> incl l xs -> l = xs.
  (** no two proofs made of these values give the same data *)
  Definition distinct_data (n : nat) (xs : list N) : Prop :=
    forall l l' y y' m, incl l xs -> incl l' xs -> spells n l y m -> spells n l' y' m -> l = l'.
End Spec.

(** When a proof of space is good for a challenge, in terms of the hash functions *)
From Verif Require Import SpaceModel.
Section Good.
  Variable Or : oracle.
  Variable P : params.
  Definition made_of (p : proof) : nat -> list N -> N -> list N -> Prop := spells (f1 Or (pf_ksize p) (pf_plot_id p)) (f2 Or (pf_ksize p)).
  Record good_proof (p : proof) (challenge difficulty vdf_height y : N) (data : list N) : Prop := mk_good {
    g_challenge : pf_challenge p = challenge;
    g_difficulty : pf_difficulty p = difficulty /\ 0 < difficulty;
    g_ksize : min_ksize P <= pf_ksize p <= max_ksize P;
    (** the plot is the one of that size, seed, farmer key and contract *)
    g_plot : pf_plot_id p = match pf_contract p with
                            | None => o_idog Or (pf_ksize p) (pf_seed p) (pf_farmer_key p)
                            | Some c => o_idnft Or (pf_ksize p) (pf_seed p) (pf_farmer_key p) c end;
    (** the plot may take part: the leading bits of a hash are zero *)
    g_filter : o_filter Or (pf_plot_id p) challenge / 2 ^ (256 - plot_filter P) = 0;
    (** 256 values that fit together *)
    g_tree : made_of p 8 (pf_xs p) y data;
    (** the number they give is one of those asked for *)
    g_window : let y0 := o_plot Or (pf_plot_id p) challenge mod 2 ^ 32 mod 2 ^ pf_ksize p in y0 <= y < y0 + 2 ^ plot_filter P;
    (** good enough *)
    g_quality : let c := o_plot Or (pf_plot_id p) challenge in
      let limit := 2 ^ 255 / ((difficulty * space_diff_constant P) mod 2 ^ 128) * (2 * pf_ksize p + 1) mod 2 ^ 256 in
      if hardfork1_height P <=? vdf_height
      then o_post Or c (firstn 12 data) / 2 ^ (256 - post_filter P) = 0 /\ o_proof Or c (pf_xs p) / 2 ^ post_filter P / 2 ^ (pf_ksize p - 1) < limit
      else o_quality Or c (firstn 12 data) / 2 ^ (pf_ksize p - 1) < limit;
    g_score : pf_score p = o_proof Or challenge (pf_xs p) mod 256 }.
End Good.
