(** * Properties of the quasi-random generator: C68. *)
From Coq Require Import Reals Lra.
From Flocq Require Import Core.
From Verif Require Import Prelude RealOps Optim OptimSpec OptimLemmas Phi PhiProofs PhiWitness PhiLemmas.
Local Open Scope R_scope.

(** ** C68 *)
(** float64 with a correctly rounded power: the loop ends for every number of dimensions, near the exact solution. *)
Theorem C68_loop_ends n : (0 < n)%nat -> exists fuel phi, (forall k, r2_phi plus1_f pow_f (fuel + k) n = Ok phi) /\ 1 <= phi <= 2 /\
  (forall r, 0 < r -> r ^ (n + 1) = 1 + r -> Rabs (phi - r) <= / 2 ^ 50).
Proof. exact (float_loop n). Qed.
Print Assumptions C68_loop_ends.
Theorem C68_solution n : (0 < n)%nat -> exists r, 0 < r /\ r ^ (n + 1) = 1 + r.
Proof. exact (real_root n). Qed.
Print Assumptions C68_solution.
(** Any power that does not decrease does. *)
Theorem C68_monotone_ends n pw : (0 < n)%nat ->
  (forall x, 2 <= x <= 3 -> is_f64 x -> is_f64 (pw n x) /\ 1 <= pw n x <= 2) ->
  (forall x y, 2 <= x -> x <= y -> y <= 3 -> is_f64 x -> is_f64 y -> pw n x <= pw n y) ->
  exists fuel phi, (forall k, r2_phi plus1_f pw (fuel + k) n = Ok phi) /\ is_f64 phi /\ 1 <= phi <= 2 /\ pw n (plus1_f phi) = phi.
Proof. exact (monotone_loop n pw). Qed.
Print Assumptions C68_monotone_ends.
(** A power that is off by less than one unit in the last place need not: [127] dimensions. *)
Theorem C68_any_power_refuted : exists n pw, (0 < n)%nat /\
  (forall x, 2 <= x <= 3 -> is_f64 x -> is_f64 (pw x) /\ 1 <= pw x <= 2 /\ Rabs (pw x - Rpower x (f64 (1 / INR (n + 1)))) < bpow radix2 (-52)) /\
  forall fuel, phi_loop plus1_f pw fuel 2 = Err OutOfFuel.
Proof. exact bad_pow. Qed.
Print Assumptions C68_any_power_refuted.
(** The loop relies on rounding: with exact numbers it never ends. *)
Theorem C68_exact_never_ends n fuel : (0 < n)%nat -> r2_phi (fun x => 1 + x) pow_R fuel n = Err OutOfFuel.
Proof. exact (exact_loop n fuel). Qed.
Print Assumptions C68_exact_never_ends.
Theorem C68_no_dimension plus1 pw fuel : r2_phi plus1 pw fuel 0 = Err ValueError.
Proof. exact eq_refl. Qed.
Print Assumptions C68_no_dimension.
(** The hypotheses on the power have an instance for every dimension. *)
Example C68_case : (forall x, 2 <= x <= 3 -> is_f64 x -> is_f64 (pow_f 3 x) /\ 1 <= pow_f 3 x <= 2) /\
  (forall x y, 2 <= x -> x <= y -> y <= 3 -> is_f64 x -> is_f64 y -> pow_f 3 x <= pow_f 3 y).
Proof. destruct (pow_f_ok 3 ltac:(lia)) as (P1 & P2 & P3). auto. Qed.
Example C68_golden : ((1 + sqrt 5) / 2) ^ (1 + 1) = 1 + (1 + sqrt 5) / 2.
Proof. pose proof (sqrt_sqrt 5 ltac:(lra)). simpl. lra. Qed.
