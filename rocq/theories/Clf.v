(** * Clf: classification.py over exact reals. *)
From Verif Require Import Prelude Perp Gamma RealOps.

(** scipy.special.betaln. *)
Definition betaln (a b : R) : R := gammaln a + gammaln b - gammaln (a + b).

(** utils.py:7-12 [multivariate_betaln]. *)
Definition multivariate_betaln (alphas : list R) : R :=
  match alphas with
  | [a; b] => betaln a b
  | _ => vsum (map gammaln alphas) - gammaln (vsum alphas)
  end.

(** [y == i] for a float target [y] and a class number [i] (classification.py:76,97). *)
Definition is_class (y : R) (i : nat) : bool := Reqb y (INR i).

(** classification.py:95-97: [k], the number of targets of each class. *)
Definition count_class (ys : list R) (i : nat) : R :=
  INR (length (filter (fun y => is_class y i) ys)).
Definition class_counts (n_classes : nat) (ys : list R) : list R :=
  map (count_class ys) (seq 0 n_classes).

(** classification.py:90-100 [_compute_posterior]. *)
Definition clf_posterior (delta : R) (prior : list R) (ys : list R) : list R :=
  if Reqb delta 0 then prior
  else map2 Rplus prior (map (fun k => delta * k) (class_counts (length prior) ys)).

(** classification.py:56-61 [_get_prior].  ([np.ones(n_dim)] is as in the code, although the length
    of a prior is the number of classes.) *)
Definition clf_get_prior (prior : option (list R)) (n_data n_dim : nat) : list R :=
  match prior with
  | Some p => p
  | None => repeat (INR (Nat.max 1 (n_data / 100))) n_dim
  end.

(** classification.py:63-69 [_compute_log_p_data_no_split]. *)
Definition clf_no_split (pp : R) (lvl : nat) (prior ys : list R) : R :=
  let posterior := clf_posterior 1 prior ys in
  let log_p_prior := ln (1 - pp ^ (1 + lvl)) in
  let log_p_data := multivariate_betaln posterior - multivariate_betaln prior in
  log_p_prior + log_p_data.

(** classification.py:73-79: class counts left ([k1]) and right ([k2]) of each split position,
    from cumulative sums; one list per class, indexed by split position. *)
Definition indicator (b : bool) : R := if b then 1 else 0.
Definition clf_k1_and_total (ys : list R) (i : nat) : list R :=
  cumsum (map (fun y => indicator (is_class y i)) ys).
Definition clf_k1 (ys : list R) (splits : list nat) (i : nat) : list R :=
  map (fun s => nth (s - 1) (clf_k1_and_total ys i) 0) splits.
Definition clf_k2 (ys : list R) (splits : list nat) (i : nat) : list R :=
  map (fun k => last (clf_k1_and_total ys i) 0 - k) (clf_k1 ys splits i).

(** classification.py:105-108 [_compute_log_p_data]: [multivariate_betaln(prior+k) - betaln_prior],
    elementwise over split positions ([k] has one array per class). *)
Definition clf_log_p_data (prior : list R) (k : list (list R)) (n_splits : nat) : list R :=
  map (fun j => multivariate_betaln (map2 Rplus prior (map (fun ki => nth j ki 0) k))
                - multivariate_betaln prior)
      (seq 0 n_splits).

(** classification.py:71-88 [_compute_log_p_data_split]. *)
Definition clf_split (pp : R) (lvl : nat) (prior : list R) (n_dim : nat)
    (ys : list R) (splits : list nat) : list R :=
  let n_classes := length prior in
  let k1 := map (clf_k1 ys splits) (seq 0 n_classes) in
  let k2 := map (clf_k2 ys splits) (seq 0 n_classes) in
  let n_splits := length splits in
  let log_p_prior := ln (pp ^ (1 + lvl) / (INR n_splits * INR n_dim)) in
  map2 (fun a b => log_p_prior + a + b)
       (clf_log_p_data prior k1 n_splits) (clf_log_p_data prior k2 n_splits).

(** classification.py:102-103 [_compute_posterior_mean]. *)
Definition clf_posterior_mean (posterior : list R) : list R :=
  map (fun a => a / vsum posterior) posterior.

(** classification.py:110-112 [_predict_leaf]: [np.argmax(self.posterior_)]. *)
Definition clf_predict_leaf (posterior : list R) : nat := argmax Rgtb posterior.

Definition clf_lik (pp delta : R) : lik R (list R) R := {|
  l_prior := clf_get_prior;
  l_no_split := clf_no_split pp;
  l_split := clf_split pp;
  l_argmax := argmax Rgtb;
  l_gt := Rgtb;
  l_ge := Rgeb;
  l_post := clf_posterior 1;
  (* base_perpendicular.py:140-141 *)
  l_child_prior := fun prior ys => if Reqb delta 0 then prior else clf_posterior delta prior ys;
  l_many := many_R
|}.
