(** * Phi: the fixed point iteration of the quasi-random generator (utils.py:24-35). *)
From Coq Require Import Reals.
From Flocq Require Import Core.
From Verif Require Import Prelude RealOps.
Local Open Scope R_scope.

(** utils.py:28-35: the loop from [phi_old] on; [plus1 x] is [1+x] and [pw x] is [pow(x, 1/(n_dim+1))].
    [fuel] bounds the number of rounds. *)
Fixpoint phi_loop (plus1 pw : R -> R) (fuel : nat) (phi_old : R) : res R :=
  match fuel with
  | 0%nat => Err OutOfFuel
  | Datatypes.S fuel' =>
      let phi := pw (plus1 phi_old) in
      if Reqb phi phi_old then Ok phi else phi_loop plus1 pw fuel' phi
  end.
(** utils.py:24-35. *)
Definition r2_phi (plus1 : R -> R) (pw : nat -> R -> R) (fuel n_dim : nat) : res R :=
  match n_dim with 0%nat => Err ValueError | _ => phi_loop plus1 (pw n_dim) fuel 2 end.

(** Exact arithmetic. *)
Definition pow_R (n_dim : nat) (x : R) : R := Rpower x (1 / INR (n_dim + 1)).

(** float64: the rounding of a real number to nearest, ties to even.  All values of the loop lie between 0 and 3, so
    overflow does not occur. *)
Notation f64_exp := (FLT_exp (-1074) 53).
Definition f64 (x : R) : R := round radix2 f64_exp ZnearestE x.
Definition is_f64 (x : R) : Prop := generic_format radix2 f64_exp x.
(** [1+x]; a correctly rounded [pow(x, 1/(n_dim+1))], whose second argument is rounded as well. *)
Definition plus1_f (x : R) : R := f64 (1 + x).
Definition pow_f (n_dim : nat) (x : R) : R := f64 (Rpower x (f64 (1 / INR (n_dim + 1)))).
