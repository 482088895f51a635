(** * RegSpec: what a regression tree should compute (normal-gamma conjugate model), from means and
    squared deviations. *)
From Verif Require Import Prelude Perp Gamma RealOps Reg OptSpec ClfSpec.

Definition mean (ys : list R) : R := vsum ys / INR (length ys).
Definition ssd (ys : list R) : R := vsum (map (fun y => (y - mean ys) ^ 2) ys).

(** Textbook batch update with observation weight [w] (w = 1: Bayes' rule). *)
Definition ng_update (w : R) (p : ng) (ys : list R) : ng :=
  let n := INR (length ys) in
  mkNG ((ng_kappa p * ng_mu p + n * w * mean ys) / (ng_kappa p + n * w))
       (ng_kappa p + n * w)
       (ng_alpha p + n * w / 2)
       (ng_beta p + w * ssd ys / 2
        + w * (ng_kappa p * n * (mean ys - ng_mu p) ^ 2) / (2 * (ng_kappa p + n))).

(** Textbook log marginal likelihood. *)
Definition ng_logev (p : ng) (ys : list R) : R :=
  let q := ng_update 1 p ys in
  gammaln (ng_alpha q) - gammaln (ng_alpha p)
  + ng_alpha p * ln (ng_beta p) - ng_alpha q * ln (ng_beta q)
  + (ln (ng_kappa p) - ln (ng_kappa q)) / 2
  - INR (length ys) / 2 * ln (2 * PI).

(** One-observation update and the Student-t predictive log-density. *)
Definition ng_step (p : ng) (y : R) : ng :=
  mkNG ((ng_kappa p * ng_mu p + y) / (ng_kappa p + 1))
       (ng_kappa p + 1)
       (ng_alpha p + / 2)
       (ng_beta p + ng_kappa p * (y - ng_mu p) ^ 2 / (2 * (ng_kappa p + 1))).
Definition student_ln (p : ng) (y : R) : R :=
  gammaln (ng_alpha p + / 2) - gammaln (ng_alpha p)
  + / 2 * ln (ng_kappa p / (2 * PI * ng_beta p * (ng_kappa p + 1)))
  - (ng_alpha p + / 2) * ln (1 + ng_kappa p * (y - ng_mu p) ^ 2 / (2 * ng_beta p * (ng_kappa p + 1))).
Fixpoint seq_student (p : ng) (ys : list R) : R :=
  match ys with [] => 0 | y :: t => student_ln p y + seq_student (ng_step p y) t end.

Definition reg_tgt (pp delta : R) : tgt R ng R := {|
  t_prior := fun pa n d => match pa with
     | Some p => p
     | None => let c := INR (Nat.max 1 (n / 100)) in mkNG 0 c (c / 2) (c / 2) end;
  t_stop := fun lvl p ys => ln (1 - pp ^ (1 + lvl)) + ng_logev p ys;
  t_cut := fun lvl p n m l r => ln (pp ^ (1 + lvl) / (INR m * INR n)) + ng_logev p l + ng_logev p r;
  t_gt := Rgt;
  t_post := ng_update 1;
  t_child_prior := ng_update delta;
  t_many := many
|}.

Definition reg_pok (p : ng) : Prop := 0 < ng_kappa p /\ 0 < ng_alpha p /\ 0 < ng_beta p.
