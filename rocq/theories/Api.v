(** * Api: the public entry points of the perpendicular trees, on validated dense input.

    Input conversion and validation (base.py:57-66, 200-245) are modelled in Validate.v and Object.v. *)
From Coq Require String.
From Verif Require Import Prelude Tree Perp RealOps Clf Reg.
Notation string := String.string.

(** A training set: [ts_n] rows, [ts_dim] columns, matrix, target and feature names. *)
Record tset (A Y : Type) := mkSet {
  ts_n : nat; ts_dim : nat; ts_X : nat -> nat -> A; ts_y : nat -> Y; ts_names : list string }.
Arguments mkSet {A Y}.
Arguments ts_n {A Y}.
Arguments ts_dim {A Y}.
Arguments ts_X {A Y}.
Arguments ts_y {A Y}.
Arguments ts_names {A Y}.

(** base.py:68-74: the part of [fit] after validation; [lvl] is [self.level], [pa] is [self.prior],
    [same] compares [_predict_leaf] of two leaves. *)
Definition perp_fit {A V Y P S} (F : feat A V) (L : lik Y P S) (same : ninfo P -> ninfo P -> bool)
    (do_prune : bool) (lvl : nat) (pa : option P) (d : tset A Y) : res (tree (pdesc string V) S P) :=
  let! t := pfit_root F L (ts_X d) (ts_y d) (ts_names d) lvl pa (ts_n d) (ts_dim d) in
  if do_prune then prune same t else Ok t.

(** Constructor arguments (classification.py:182, regression.py:202) without [level] (0 for a tree
    created by the user). *)
Record hyper (P : Type) := mkHyper {
  h_pp : R; h_prior : option P; h_delta : R; h_prune : bool; h_prec : R }.
Arguments mkHyper {P}.
Arguments h_pp {P}.
Arguments h_prior {P}.
Arguments h_delta {P}.
Arguments h_prune {P}.
Arguments h_prec {P}.

(** base.py:155 for classification: comparison of two class numbers. *)
Definition clf_same (i j : ninfo (list R)) : bool :=
  Nat.eqb (clf_predict_leaf (i_post i)) (clf_predict_leaf (i_post j)).
(** base.py:155 for regression: comparison of two numbers. *)
Definition reg_same (i j : ninfo ng) : bool := Reqb (reg_predict_leaf (i_post i)) (reg_predict_leaf (i_post j)).

Definition ctree : Type := tree (pdesc string R) R (list R).
Definition rtree : Type := tree (pdesc string R) R ng.

(** [PerpendicularClassificationTree(...).fit(X, y)]; [srt] is np.argsort. *)
Definition clf_fit (srt : (nat -> R) -> nat -> list nat) (h : hyper (list R)) (d : tset R R) : res ctree :=
  perp_fit (feat_R (h_prec h) srt) (clf_lik (h_pp h) (h_delta h)) clf_same (h_prune h) 0 (h_prior h) d.

(** [PerpendicularRegressionTree(...).fit(X, y)]. *)
Definition reg_fit (srt : (nat -> R) -> nat -> list nat) (h : hyper ng) (d : tset R R) : res rtree :=
  perp_fit (feat_R (h_prec h) srt) (reg_lik (h_pp h) (h_delta h)) reg_same (h_prune h) 0 (h_prior h) d.

(** The comparisons of base_perpendicular.py:196-197 over the reals. *)
Definition goes_left (X : nat -> nat -> R) (d : pdesc string R) (i : nat) : bool := Rltb (X i (sd_dim d)) (sd_val d).
Definition goes_right (X : nat -> nat -> R) (d : pdesc string R) (i : nat) : bool := Rgeb (X i (sd_dim d)) (sd_val d).

(** base.py:98-102: [predict] of [m] query rows; the result array is pre-filled with zeros.  The class
    number is stored as a float. *)
Definition clf_predict (t : ctree) (Xq : nat -> nat -> R) (m : nat) : list R :=
  predict_rows (goes_left Xq) (goes_right Xq) (fun i => INR (clf_predict_leaf (i_post i))) t m 0.
Definition reg_predict (t : rtree) (Xq : nat -> nat -> R) (m : nat) : list R :=
  predict_rows (goes_left Xq) (goes_right Xq) (fun i => reg_predict_leaf (i_post i)) t m 0.
(** classification.py:43-46 [predict_proba]; [None] marks entries that were never assigned. *)
Definition clf_predict_proba (t : ctree) (Xq : nat -> nat -> R) (m : nat) : list (option (list R)) :=
  predict_rows (goes_left Xq) (goes_right Xq) (fun i => Some (clf_posterior_mean (i_post i))) t m None.
(** base.py:189-193 [_get_raw_leaf_data]: pairs of [self.prior] and [self.posterior_]. *)
Definition raw_leaf_data {P} (t : tree (pdesc string R) R P) (Xq : nat -> nat -> R) (m : nat)
    : list (option (option P * P)) :=
  predict_rows (goes_left Xq) (goes_right Xq) (fun i => Some (i_prior i, i_post i)) t m None.

(** base_perpendicular.py:37-43 [prediction_paths] of [m] query rows; a step is
    (split dimension, feature name, split value, flag). *)
Definition perp_step (s : pdesc string R) (b : bool) : nat * string * R * bool := (sd_dim s, sd_name s, sd_val s, b).
Definition perp_paths {S P} (t : tree (pdesc string R) S P) (Xq : nat -> nat -> R) (m : nat)
    : list (list (nat * string * R * bool)) :=
  prediction_paths (goes_left Xq) (goes_right Xq) perp_step t m.
