(** * FloatClf: classification.py in float64 (one NaN, round to nearest even, as in FloatFeat.v).

    [np.log], [gammaln], [betaln], [partition_prior**k] and the order of additions in [np.sum] are parameters.  A target is a
    float64 number (base.py:225-238). *)
From Flocq Require Import Core BinarySingleNaN.
From Verif Require Import Prelude Tree Perp RealOps FloatFeat FloatReg.

(** [y == i] for a class number [i] (classification.py:76, 97). *)
Definition cl64_is (y : float64) (i : nat) : bool := Beqb y (f_nat i).
(** classification.py:95-97: [k], integers. *)
Definition cl64_counts (n_classes : nat) (ys : list float64) : list nat :=
  map (fun i => length (filter (fun y => cl64_is y i) ys)) (seq 0 n_classes).

(** classification.py:90-100 [_compute_posterior] with the default [delta=1] (an integer, so that [delta*k] is one). *)
Definition cl64_posterior1 (prior : list float64) (ys : list float64) : list float64 :=
  map2 f_add prior (map f_nat (cl64_counts (length prior) ys)).
(** The same for a float [delta]. *)
Definition cl64_posterior (delta : float64) (prior : list float64) (ys : list float64) : list float64 :=
  if Beqb delta f_zero then prior
  else map2 f_add prior (map (fun k => f_mul delta (f_nat k)) (cl64_counts (length prior) ys)).

(** classification.py:56-61 [_get_prior]. *)
Definition cl64_get_prior (prior : option (list float64)) (n_data n_dim : nat) : list float64 :=
  match prior with
  | Some p => p
  | None => repeat (f_nat (Nat.max 1 (n_data / 100))) n_dim
  end.

Section Logs.
(** [np.sum] of an array, [np.log], [gammaln], [betaln] and [x ** k] for an integer [k]. *)
Variable fsum : list float64 -> float64.
Variables (flog fgammaln : float64 -> float64) (fbetaln : float64 -> float64 -> float64) (fpow : float64 -> nat -> float64).
Variables (pp delta : float64).

(** utils.py:7-12 [multivariate_betaln]. *)
Definition cl64_betaln (alphas : list float64) : float64 :=
  match alphas with
  | [a; b] => fbetaln a b
  | _ => f_sub (fsum (map fgammaln alphas)) (fgammaln (fsum alphas))
  end.

(** classification.py:63-69 [_compute_log_p_data_no_split]. *)
Definition cl64_no_split (lvl : nat) (prior ys : list float64) : float64 :=
  f_add (flog (f_sub f_one (fpow pp (1 + lvl)))) (f_sub (cl64_betaln (cl64_posterior1 prior ys)) (cl64_betaln prior)).

(** classification.py:71-88 [_compute_log_p_data_split], 105-108 [_compute_log_p_data]: integer counts left and right of each
    position. *)
Definition cl64_split (lvl : nat) (prior : list float64) (n_dim : nat) (ys : list float64) (splits : list nat) : list float64 :=
  let log_p_prior := flog (f_div (fpow pp (1 + lvl)) (f_nat (length splits * n_dim))) in
  let side zs := f_sub (cl64_betaln (cl64_posterior1 prior zs)) (cl64_betaln prior) in
  map (fun s => f_add (f_add log_p_prior (side (firstn s ys))) (side (skipn s ys))) splits.

Definition cl64_lik : lik float64 (list float64) float64 := {|
  l_prior := cl64_get_prior;
  l_no_split := cl64_no_split;
  l_split := cl64_split;
  l_argmax := f_argmax;
  l_gt := fun a b => Bltb b a;
  l_ge := fun a b => Bleb b a;
  l_post := cl64_posterior1;
  l_child_prior := fun prior ys => if Beqb delta f_zero then prior else cl64_posterior delta prior ys;
  l_many := f_many
|}.

(** classification.py:102-103 [_compute_posterior_mean]. *)
Definition cl64_mean (posterior : list float64) : list float64 := map (fun a => f_div a (fsum posterior)) posterior.
End Logs.

(** classification.py:110-112 [_predict_leaf]. *)
Definition cl64_predict_leaf (posterior : list float64) : nat := f_argmax posterior.
(** base.py:147-165. *)
Definition cl64_same (i j : ninfo (list float64)) : bool := Nat.eqb (cl64_predict_leaf (i_post i)) (cl64_predict_leaf (i_post j)).
