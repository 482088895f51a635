(** * C92: candidate normals that overflow in float64. *)
From Coq Require Import Reals.
From Flocq Require Import Core BinarySingleNaN.
From Verif Require Import Prelude Tree Perp RealOps Api Hyper Spec
  FloatFeat FloatReg FloatSum FloatNG FloatClf FloatClfSum FloatHyper FloatHyperDot FloatHyperFit FloatHyperEx FloatHyperHuge FloatHyperScale.
Local Open Scope R_scope.

(** With an entry of absolute value 2^512 or more, or an infinite one, no entry of the normal is a finite number other than 0. *)
Theorem C92_normal fdot v : blas fdot -> (exists a, In a v /\ ((exists s, a = B754_infinity s) \/ b2 512 <= Rabs (B2R a))) ->
  Forall (fun x => is_finite x = false \/ B2R x = 0) (f_unit fdot v).
Proof. exact (unit_huge fdot v). Qed.
Print Assumptions C92_normal.
(** Only such candidates: the tree is one leaf. *)
Theorem C92_clf {C} fdot fmv fsum flog fgammaln fbetaln fpow pp delta (pre : C -> list float64) prec srt dim prn lvl pa cands d t : blas fdot -> blas fmv ->
  (0 < hs_n d)%nat -> (forall i, (i < hs_n d)%nat -> length (hs_X d i) = dim /\ Forall (fun a => is_finite a = true) (hs_X d i)) ->
  (forall path c, In c (cands path) -> length (pre c) = dim /\ huge_vec (pre c)) ->
  hcl64_fit fdot fmv fsum flog fgammaln fbetaln fpow pp delta pre prec srt prn lvl pa cands d = Ok t ->
  t = Leaf (info t) /\ i_n_data (info t) = hs_n d.
Proof. exact (clf64_huge fdot fmv fsum flog fgammaln fbetaln fpow pp delta pre prec srt dim prn lvl pa cands d t). Qed.
Print Assumptions C92_clf.
Theorem C92_reg {C} fdot fmv fsum flog fgammaln fpow f2pi pp delta (pre : C -> list float64) prec srt dim prn lvl pa cands d t : blas fdot -> blas fmv ->
  (0 < hs_n d)%nat -> (forall i, (i < hs_n d)%nat -> length (hs_X d i) = dim /\ Forall (fun a => is_finite a = true) (hs_X d i)) ->
  (forall path c, In c (cands path) -> length (pre c) = dim /\ huge_vec (pre c)) ->
  hreg64_fit fdot fmv fsum flog fgammaln fpow f2pi pp delta pre prec srt prn lvl pa cands d = Ok t ->
  t = Leaf (info t) /\ i_n_data (info t) = hs_n d.
Proof. exact (reg64_huge fdot fmv fsum flog fgammaln fpow f2pi pp delta pre prec srt dim prn lvl pa cands d t). Qed.
Print Assumptions C92_reg.
(** Different rows 2^512 or more apart in some column, and differences of rows as candidates, as in RandomTwoPointOptimizer: one leaf. *)
Theorem C92_clf_rows {C} fdot fmv fsum flog fgammaln fbetaln fpow pp delta (pre : C -> list float64) prec srt dim prn lvl pa cands d t : blas fdot -> blas fmv ->
  (0 < hs_n d)%nat -> (forall i, (i < hs_n d)%nat -> length (hs_X d i) = dim /\ Forall (fun a => is_finite a = true) (hs_X d i)) ->
  far_rows d -> (forall path c, In c (cands path) -> row_difference d (pre c)) ->
  hcl64_fit fdot fmv fsum flog fgammaln fbetaln fpow pp delta pre prec srt prn lvl pa cands d = Ok t ->
  t = Leaf (info t) /\ i_n_data (info t) = hs_n d.
Proof. exact (clf64_far fdot fmv fsum flog fgammaln fbetaln fpow pp delta pre prec srt dim prn lvl pa cands d t). Qed.
Print Assumptions C92_clf_rows.
Theorem C92_reg_rows {C} fdot fmv fsum flog fgammaln fpow f2pi pp delta (pre : C -> list float64) prec srt dim prn lvl pa cands d t : blas fdot -> blas fmv ->
  (0 < hs_n d)%nat -> (forall i, (i < hs_n d)%nat -> length (hs_X d i) = dim /\ Forall (fun a => is_finite a = true) (hs_X d i)) ->
  far_rows d -> (forall path c, In c (cands path) -> row_difference d (pre c)) ->
  hreg64_fit fdot fmv fsum flog fgammaln fpow f2pi pp delta pre prec srt prn lvl pa cands d = Ok t ->
  t = Leaf (info t) /\ i_n_data (info t) = hs_n d.
Proof. exact (reg64_far fdot fmv fsum flog fgammaln fpow f2pi pp delta pre prec srt dim prn lvl pa cands d t). Qed.
Print Assumptions C92_reg_rows.

(** The tree is not invariant under multiplication of all rows with a power of two: two rows are separated, their multiples are not. *)
Theorem C92_scale_refuted : exists a b r i pl g h c1 c2 i', scaled r a b /\ 0 < r /\
  two_fit a = Ok (Split i pl g h c1 c2) /\ two_fit b = Ok (Leaf i').
Proof. exact scale_differs. Qed.
Print Assumptions C92_scale_refuted.

(** ** Cases *)
Example C92_case : (0 < hs_n huge_set)%nat /\
  (forall i, (i < hs_n huge_set)%nat -> length (hs_X huge_set i) = 1%nat /\ Forall (fun a => is_finite a = true) (hs_X huge_set i)) /\
  (forall path c, In c (huge_cands path) -> length c = 1%nat /\ huge_vec c) /\ huge_cands [] = [map2 f_sub (hs_X huge_set 1) (hs_X huge_set 0); [B754_infinity true]].
Proof. exact huge_case. Qed.
Example C92_rows_case : far_rows huge_set /\ row_difference huge_set [f_600].
Proof. exact far_case. Qed.
Example C92_blas_case : blas f_dot.
Proof. exact dot_left_to_right. Qed.
