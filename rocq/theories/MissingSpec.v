(** * MissingSpec: training matrices with NaN and infinite entries. *)
From Flocq Require Import Core BinarySingleNaN.
From Verif Require Import Prelude Tree Perp Api FloatFeat NumApi.
Local Open Scope nat_scope.

(** No entry is minus infinity. *)
Definition no_neg_inf (X : nat -> nat -> float64) (n n_dim : nat) : Prop :=
  forall i d, i < n -> d < n_dim -> X i d <> B754_infinity true.
(** Any two finite values of a column that the fit may separate have a sum that does not overflow and are not
    neighbours. *)
Definition separable_finite (p : float64) (X : nat -> nat -> float64) (n n_dim : nat) : Prop :=
  forall i j d, i < n -> j < n -> d < n_dim -> is_finite (X i d) = true -> is_finite (X j d) = true ->
    Bltb (X i d) (X j d) = true -> gap_f p (X i d) (X j d) = true ->
    is_finite (Bplus mode_NE (X i d) (X j d)) = true /\
    exists c : float64, Bltb (X i d) c = true /\ Bltb c (X j d) = true.

(** Right of a split is whatever is not left of it; NaN in particular. *)
Definition not_left (X : nat -> nat -> float64) (e : pdesc string float64) (i : nat) : bool := negb (f_left X e i).

(** A split that row [i] comes to asks for an entry that is NaN. *)
Fixpoint meets_nan {S P} (X : nat -> nat -> float64) (t : tree (pdesc string float64) S P) (i : nat) : bool :=
  match t with
  | Leaf _ => false
  | Split _ e _ _ c1 c2 => is_nan (X i (sd_dim e)) || (if f_left X e i then meets_nan X c1 i else meets_nan X c2 i)
  end.
