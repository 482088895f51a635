(** * Reg: regression.py over exact reals. *)
From Verif Require Import Prelude Perp Gamma RealOps.

(** The prior/posterior 4-tuple (mu, kappa, alpha, beta). *)
Record ng := mkNG { ng_mu : R; ng_kappa : R; ng_alpha : R; ng_beta : R }.

(** regression.py:93-104 [_compute_posterior_internal]. *)
Definition reg_post_internal (prior : ng) (n y_sum y_sq : R) (delta : R) : ng :=
  let mu := ng_mu prior in let kappa := ng_kappa prior in
  let alpha := ng_alpha prior in let beta := ng_beta prior in
  let n_delta := n * delta in
  let kappa_post := kappa + n_delta in
  let mu_post := (kappa * mu + n_delta * y_sum / n) / kappa_post in
  let alpha_post := alpha + / 2 * n_delta in
  let beta_post := beta + / 2 * delta * (y_sq - y_sum ^ 2 / n)
                   + / 2 * kappa * n_delta * (y_sum / n - mu) ^ 2 / (kappa + n) in
  mkNG mu_post kappa_post alpha_post beta_post.

(** regression.py:83-91 [_compute_posterior]. *)
Definition reg_posterior (delta : R) (prior : ng) (ys : list R) : ng :=
  if Reqb delta 0 then prior
  else reg_post_internal prior (INR (length ys)) (vsum ys) (vsum (map (fun y => y ^ 2) ys)) delta.

(** regression.py:109-116 [_compute_log_p_data]. *)
Definition reg_log_p_data (prior : ng) (alpha_new beta_new kappa_new n_new : R) : R :=
  gammaln alpha_new - gammaln (ng_alpha prior)
  + ng_alpha prior * ln (ng_beta prior) - alpha_new * ln beta_new
  + / 2 * ln (ng_kappa prior / kappa_new)
  - / 2 * n_new * ln (2 * PI).

(** regression.py:29-37 [_compute_log_p_data_no_split]. *)
Definition reg_no_split (pp : R) (lvl : nat) (prior : ng) (ys : list R) : R :=
  let y_sum := vsum ys in
  let y_sq := vsum (map (fun y => y ^ 2) ys) in
  let n := INR (length ys) in
  let post := reg_post_internal prior n y_sum y_sq 1 in
  let log_p_prior := ln (1 - pp ^ (1 + lvl)) in
  let log_p_data := reg_log_p_data prior (ng_alpha post) (ng_beta post) (ng_kappa post) n in
  log_p_prior + log_p_data.

(** regression.py:59-66: posterior and log-evidence of one side, elementwise. *)
Definition reg_side (prior : ng) (ns sums sqs : list R) : list R :=
  map (fun nsq => let '(n, (s, q)) := nsq in
         let post := reg_post_internal prior n s q 1 in
         reg_log_p_data prior (ng_alpha post) (ng_beta post) (ng_kappa post) n)
      (combine ns (combine sums sqs)).

(** regression.py:39-68 [_compute_log_p_data_split]. *)
Definition reg_split (pp : R) (lvl : nat) (prior : ng) (n_dim : nat)
    (ys : list R) (splits : list nat) : list R :=
  let n := length ys in
  let n1 := map INR (seq 1 (n - 1)) in
  let n2 := map (fun k => INR n - k) n1 in
  let y_sum1 := removelast (cumsum ys) in
  let y_sum2 := map (fun s => vsum ys - s) y_sum1 in
  let y_sq1 := cumsum (map (fun y => y ^ 2) (removelast ys)) in
  let y_sq2 := map (fun s => vsum (map (fun y => y ^ 2) ys) - s) y_sq1 in
  let pick (l : list R) : list R :=
    if Nat.eqb (length splits) (n - 1) then l
    else map (fun s => nth (s - 1) l 0) splits in
  let log_p_prior := ln (pp ^ (1 + lvl) / (INR (length splits) * INR n_dim)) in
  map2 (fun a b => log_p_prior + a + b)
       (reg_side prior (pick n1) (pick y_sum1) (pick y_sq1))
       (reg_side prior (pick n2) (pick y_sum2) (pick y_sq2)).

(** regression.py:70-81 [_get_prior]. *)
Definition reg_get_prior (prior : option ng) (n_data n_dim : nat) : ng :=
  match prior with
  | Some p => p
  | None =>
      let c := INR (Nat.max 1 (n_data / 100)) in
      let tau := 1 in
      mkNG 0 c (c / 2) (c / 2 / tau)
  end.

(** regression.py:106-107, 118-120: both the prediction and the posterior mean are mu. *)
Definition reg_predict_leaf (posterior : ng) : R := ng_mu posterior.

Definition reg_lik (pp delta : R) : lik R ng R := {|
  l_prior := reg_get_prior;
  l_no_split := reg_no_split pp;
  l_split := reg_split pp;
  l_argmax := argmax Rgtb;
  l_gt := Rgtb;
  l_ge := Rgeb;
  l_post := reg_posterior 1;
  (* base_perpendicular.py:140-141 *)
  l_child_prior := fun prior ys => if Reqb delta 0 then prior else reg_posterior delta prior ys;
  l_many := many_R
|}.
