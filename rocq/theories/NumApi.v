(** * NumApi: fit and predict on float64 and integer feature matrices. *)
From Flocq Require Import BinarySingleNaN.
From Verif Require Import Prelude Tree Perp Gamma RealOps Clf Reg Api FloatFeat IntFeat.
Local Open Scope nat_scope.

(** [PerpendicularClassificationTree(...).fit(X, y)] for a float64 matrix; [p] is [split_precision]. *)
Definition fclf_fit (srt : (nat -> float64) -> nat -> list nat) (p : float64) (h : hyper (list R)) (d : tset float64 R)
    : res (tree (pdesc string float64) R (list R)) :=
  perp_fit (feat_f p srt) (clf_lik (h_pp h) (h_delta h)) clf_same (h_prune h) 0 (h_prior h) d.
(** The same for an integer matrix of type [t]; the recorded split value is twice the code's. *)
Definition iclf_fit (t : ity) (srt : (nat -> Z) -> nat -> list nat) (h : hyper (list R)) (d : tset Z R)
    : res (tree (pdesc string Z) R (list R)) :=
  perp_fit (feat_i t (h_prec h) srt) (clf_lik (h_pp h) (h_delta h)) clf_same (h_prune h) 0 (h_prior h) d.

(** base.py:98-102 and classification.py:43-46 on a float64 query matrix. *)
Definition f_left (Xq : nat -> nat -> float64) (d : pdesc string float64) (i : nat) : bool := Bltb (Xq i (sd_dim d)) (sd_val d).
Definition f_right (Xq : nat -> nat -> float64) (d : pdesc string float64) (i : nat) : bool := Bleb (sd_val d) (Xq i (sd_dim d)).
Definition fclf_predict {S} (t : tree (pdesc string float64) S (list R)) (Xq : nat -> nat -> float64) (m : nat) : list R :=
  predict_rows (f_left Xq) (f_right Xq) (fun i => INR (clf_predict_leaf (i_post i))) t m 0%R.
Definition fclf_predict_proba {S} (t : tree (pdesc string float64) S (list R)) (Xq : nat -> nat -> float64) (m : nat)
    : list (option (list R)) :=
  predict_rows (f_left Xq) (f_right Xq) (fun i => Some (clf_posterior_mean (i_post i))) t m None.
(** base.py:98-102 on an integer query matrix. *)
Definition i_left (Xq : nat -> nat -> Z) (d : pdesc string Z) (i : nat) : bool := (2 * Xq i (sd_dim d) <? sd_val d)%Z.
Definition i_right (Xq : nat -> nat -> Z) (d : pdesc string Z) (i : nat) : bool := (sd_val d <=? 2 * Xq i (sd_dim d))%Z.
Definition iclf_predict {S} (t : tree (pdesc string Z) S (list R)) (Xq : nat -> nat -> Z) (m : nat) : list R :=
  predict_rows (i_left Xq) (i_right Xq) (fun i => INR (clf_predict_leaf (i_post i))) t m 0%R.
