(** * Properties of fits on matrices with NaN and infinite entries: C69. *)
From Coq Require Import Reals Permutation Sorted.
From Flocq Require Import Core BinarySingleNaN.
From Verif Require Import Prelude Tree Perp RealOps Clf Reg Api Spec ClfSpec ApiSpec Routing FloatFeat FloatProofs NumApi.
From Verif Require Import OptProofs FitProofs OptFit NumLemmas NumWitness MissingSpec MissingProofs MissingWitness MissingLemmas.
Local Open Scope nat_scope.

(** ** C69: false of the code *)
(** The third row is trained in the leaf of class 1, but gets the answer 0 and no class distribution. *)
Theorem C69_nan_row_refuted srt : sorts fleb srt -> exists t,
  fclf_fit srt f0 two_h (three_rows f1 f2 fnan) = Ok t /\
  map (fun l => (i_n_data l, clf_predict_leaf (i_post l))) (leaves t) = [(1, 0); (2, 1)] /\
  fclf_predict t (ts_X (three_rows f1 f2 fnan)) 3 = [0; 1; 0]%R /\
  nth_error (fclf_predict_proba t (ts_X (three_rows f1 f2 fnan)) 3) 2 = Some None.
Proof. exact (nan_row_lost srt). Qed.
Print Assumptions C69_nan_row_refuted.
(** Minus infinity against a number: the row of class 0 is answered like class 1. *)
Theorem C69_neg_inf_refuted srt : sorts fleb srt -> exists t,
  fclf_fit srt f0 two_h (two_rows fmin f1) = Ok t /\
  map (fun l => (i_n_data l, clf_predict_leaf (i_post l))) (leaves t) = [(1, 0); (1, 1)] /\
  fclf_predict t (ts_X (two_rows fmin f1)) 2 = [1; 1]%R.
Proof. exact (neg_inf_misrouted srt). Qed.
Print Assumptions C69_neg_inf_refuted.
(** Minus infinity against infinity: no query at all reaches a leaf. *)
Theorem C69_both_inf_refuted srt : sorts fleb srt -> exists t,
  fclf_fit srt f0 two_h (two_rows fmin finf) = Ok t /\ length (leaves t) = 2 /\
  forall Xq m, fclf_predict_proba t Xq m = repeat None m /\ fclf_predict t Xq m = repeat 0%R m.
Proof. exact (both_inf_lost srt). Qed.
Print Assumptions C69_both_inf_refuted.
Theorem C69_neg_inf_right (b : float64) : Bltb (B754_infinity true) (mid_f (B754_infinity true) b) = false.
Proof. exact (neg_inf_not_left b). Qed.
Print Assumptions C69_neg_inf_right.
(** What the code does instead, for every matrix without minus infinity: a NaN entry is trained to the right of every
    split on its column, like infinity, ... *)
Theorem C69_trained_right {Y P S} p srt (L : lik Y P S) same do_prune lvl pa (d : tset float64 Y) t :
  Bltb p (B754_zero false) = false -> sorts fleb srt -> tset_ok d -> no_neg_inf (ts_X d) (ts_n d) (ts_dim d) ->
  separable_finite p (ts_X d) (ts_n d) (ts_dim d) -> perp_fit (feat_f p srt) L same do_prune lvl pa d = Ok t ->
  nodes_ok (f_left (ts_X d)) (not_left (ts_X d)) (fitted_on L (ts_y d)) (seq 0 (ts_n d)) t.
Proof. exact (nan_routed p srt L same do_prune lvl pa d t). Qed.
Print Assumptions C69_trained_right.
(** ... but a query, of a training row or any other, gets the leaf's answer only if no split on its way asks for a NaN
    entry.  Otherwise it gets the value [o] that the output array was filled with. *)
Theorem C69_answers {P S Y O} p srt (L : lik Y P S) same do_prune lvl pa (d : tset float64 Y) t (val : ninfo P -> O) o
    (Xq : nat -> nat -> float64) m q :
  permutes srt -> tset_ok d -> no_neg_inf (ts_X d) (ts_n d) (ts_dim d) -> perp_fit (feat_f p srt) L same do_prune lvl pa d = Ok t -> q < m ->
  exists l, reaches (fun e => f_left Xq e q = true) (fun e => not_left Xq e q = true) t l /\
    nth_error (predict_rows (f_left Xq) (f_right Xq) val t m o) q = Some (if meets_nan Xq t q then o else val l).
Proof. exact (lost_or_found p srt L same do_prune lvl pa d t val o Xq m q). Qed.
Print Assumptions C69_answers.
Example C69_case : tset_ok (three_rows f1 f2 fnan) /\ no_neg_inf (ts_X (three_rows f1 f2 fnan)) 3 1 /\
  separable_finite f0 (ts_X (three_rows f1 f2 fnan)) 3 1.
Proof. exact (conj (three_ok f1 f2 fnan) (conj three_no_inf three_separable)). Qed.
