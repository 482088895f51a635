(** * OptimSpec: vocabulary of the properties of the optimizers. *)
From Coq Require Import Reals.
From Verif Require Import Prelude Hyper Optim OptimFit.
Local Open Scope nat_scope.

(** A stream of integer draws that produces, again and again, any two classes in alternation. *)
Definition fair (rnd : nat -> Z -> Z) : Prop := forall n a b k, (0 <= a < n)%Z -> (0 <= b < n)%Z -> a <> b ->
  exists K, k <= K /\ rnd K n = a /\ rnd (K + 1) n = b /\ rnd (K + 2) n = a /\ rnd (K + 3) n = b.
(** The draws are in the range of the generator and the options ask for at least one candidate. *)
Definition proper (o : optimizer) : Prop :=
  match o with
  | SimulatedAnnealing rnd n_scan n_keep _ => (forall k, 0 <= rnd k < 1)%R /\ 0 < n_scan /\ 0 < n_keep
  | GradientDescent rnd n_init n_keep => (forall k, 0 <= rnd k < 1)%R /\ 0 < n_init /\ 0 < n_keep
  | QuasiRandom _ _ | RandomHyperplane _ _ => True
  | RandomTwoPoint rnd _ => forall k n, (0 < n)%Z -> (0 <= rnd k n < n)%Z
  end.
(** The optimizers that need a second feature get one; the two-point optimizer gets class labels and fair draws. *)
Definition usable (o : optimizer) (d : hset (list R) R) : Prop :=
  (in_hypercube o = true -> 2 <= hs_dim d) /\
  (forall rnd n_mc, o = RandomTwoPoint rnd n_mc -> fair rnd /\ forall i, i < hs_n d -> exists c : nat, hs_y d i = INR c).
