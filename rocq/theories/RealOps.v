(** * RealOps: NumPy vector operations over exact reals, and the exact feature arithmetic.

    Simplification (stated once for all real instances): float64 arithmetic is modelled by exact
    real arithmetic.  Rounding, overflow and NaN are treated by separate instances
    (FloatFeat.v, IntFeat.v) and by the generic theorems that hold for every arithmetic. *)
From Coq Require Export Reals Lra.
From Verif Require Import Prelude Perp.
Open Scope R_scope.

Definition Rltb (a b : R) : bool := if Rlt_dec a b then true else false.
Definition Rleb (a b : R) : bool := if Rle_dec a b then true else false.
Definition Reqb (a b : R) : bool := if Req_EM_T a b then true else false.
Definition Rgtb (a b : R) : bool := Rltb b a.
Definition Rgeb (a b : R) : bool := Rleb b a.

(** [np.sum]. *)
Definition vsum (l : list R) : R := fold_right Rplus 0 l.

(** Elementwise binary operation on two arrays of equal length. *)
Fixpoint map2 {A B C} (f : A -> B -> C) (l : list A) (m : list B) : list C :=
  match l, m with
  | a :: l', b :: m' => f a b :: map2 f l' m'
  | _, _ => []
  end.

(** [np.cumsum]. *)
Fixpoint cumsum_from (acc : R) (l : list R) : list R :=
  match l with [] => [] | x :: t => (acc + x) :: cumsum_from (acc + x) t end.
Definition cumsum (l : list R) : list R := cumsum_from 0 l.

(** [len(np.unique(y)) > 1]. *)
Definition many_R (ys : list R) : bool := Nat.ltb 1 (length (nodup Req_EM_T ys)).

(** Exact feature arithmetic; [prec] is [split_precision], [srt] any argsort. *)
Definition feat_R (prec : R) (srt : (nat -> R) -> nat -> list nat) : feat R R := {|
  f_lt := Rltb;
  f_ge := Rgeb;
  f_mid := fun a b => / 2 * (a + b);
  f_gap := fun a b => Rgtb (Rabs (b - a)) prec;
  f_argsort := srt
|}.
