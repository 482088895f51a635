(** * C89: hyperplane trees fitted in float64. *)
From Coq Require Import Reals Lra Permutation String.
From Flocq Require Import Core BinarySingleNaN.
From Verif Require Import Prelude Lists Tree Perp RealOps Api Hyper Spec StructProofs PredictProofs
  FloatFeat FloatReg FloatSum FloatNG FloatClf FloatClfSum FloatHyper FloatHyperDot FloatHyperFit FloatHyperEx.
Local Open Scope R_scope.

(** A fit returns a tree for any rows, candidates and targets, NaN and infinities included. *)
Theorem C89_total {C} fdot fmv fsum flog fgammaln fbetaln fpow f2pi pp delta (pre : C -> list float64) prec srt prn lvl pa pa' cands d :
  (exists t, hcl64_fit fdot fmv fsum flog fgammaln fbetaln fpow pp delta pre prec srt prn lvl pa cands d = Ok t) /\
  (exists t, hreg64_fit fdot fmv fsum flog fgammaln fpow f2pi pp delta pre prec srt prn lvl pa' cands d = Ok t).
Proof. exact (conj (h64_total _ _ _ _ _ _ _ _ _ _ _ _ _ _) (h64_total _ _ _ _ _ _ _ _ _ _ _ _ _ _)). Qed.
Print Assumptions C89_total.

(** Bounded rows, any candidates: no row is lost, and all planes are finite. *)
Theorem C89_clf_structure {C} fdot fmv fsum flog fgammaln fbetaln fpow pp delta (pre : C -> list float64) prec srt dim prn lvl pa cands d t :
  blas fdot -> blas fmv -> h64_setting pre cands d dim ->
  hcl64_fit fdot fmv fsum flog fgammaln fbetaln fpow pp delta pre prec srt prn lvl pa cands d = Ok t ->
  i_n_data (info t) = hs_n d /\ counts_ok t /\ levels_ok lvl t /\ get_n_leaves t = length (leaves t) /\
  (1 <= length (leaves t) <= hs_n d)%nat /\ get_depth t = (lvl + height t)%nat /\ (height t < hs_n d)%nat /\
  Forall (fun s => plane64 dim (fst (fst s)) /\ from_data fdot pre cands d (fst (fst s))) (splits t).
Proof. exact (clf64_structure fdot fmv fsum flog fgammaln fbetaln fpow pp delta pre prec srt dim prn lvl pa cands d t). Qed.
Print Assumptions C89_clf_structure.
Theorem C89_reg_structure {C} fdot fmv fsum flog fgammaln fpow f2pi pp delta (pre : C -> list float64) prec srt dim prn lvl pa cands d t :
  blas fdot -> blas fmv -> h64_setting pre cands d dim ->
  hreg64_fit fdot fmv fsum flog fgammaln fpow f2pi pp delta pre prec srt prn lvl pa cands d = Ok t ->
  i_n_data (info t) = hs_n d /\ counts_ok t /\ levels_ok lvl t /\ get_n_leaves t = length (leaves t) /\
  (1 <= length (leaves t) <= hs_n d)%nat /\ get_depth t = (lvl + height t)%nat /\ (height t < hs_n d)%nat /\
  Forall (fun s => plane64 dim (fst (fst s)) /\ from_data fdot pre cands d (fst (fst s))) (splits t).
Proof. exact (reg64_structure fdot fmv fsum flog fgammaln fpow f2pi pp delta pre prec srt dim prn lvl pa cands d t). Qed.
Print Assumptions C89_reg_structure.

(** A bounded query gets the class of the posterior of the training rows of one leaf; a training row is among these rows itself. *)
Theorem C89_clf_queries {C} fdot fmv fsum flog fgammaln fbetaln fpow pp delta (pre : C -> list float64) prec srt dim prn lvl pa cands d t :
  blas fdot -> blas fmv -> h64_setting pre cands d dim ->
  hcl64_fit fdot fmv fsum flog fgammaln fbetaln fpow pp delta pre prec srt prn lvl pa cands d = Ok t ->
  forall Xq m q, (q < m)%nat -> row64 dim (Xq q) ->
  exists rs, rs <> [] /\ (forall k, In k rs -> (k < hs_n d)%nat) /\
    nth_error (hcl64_predict fdot fmv t Xq m) q =
      Some (cl64_predict_leaf (cl64_posterior1 (cl64_get_prior pa (hs_n d) (hs_dim d)) (map (hs_y d) rs))) /\
    (forall k, (k < hs_n d)%nat -> Xq q = hs_X d k -> In k rs).
Proof. exact (clf64_queries fdot fmv fsum flog fgammaln fbetaln fpow pp delta pre prec srt dim prn lvl pa cands d t). Qed.
Print Assumptions C89_clf_queries.
Theorem C89_reg_queries {C} fdot fmv fsum flog fgammaln fpow f2pi pp delta (pre : C -> list float64) prec srt dim prn lvl pa cands d t :
  blas fdot -> blas fmv -> h64_setting pre cands d dim ->
  hreg64_fit fdot fmv fsum flog fgammaln fpow f2pi pp delta pre prec srt prn lvl pa cands d = Ok t ->
  forall Xq m q, (q < m)%nat -> row64 dim (Xq q) ->
  exists rs, rs <> [] /\ (forall k, In k rs -> (k < hs_n d)%nat) /\
    nth_error (hreg64_predict fdot fmv t Xq m) q =
      Some (freg_predict_leaf (freg_posterior fsum f_one (freg_get_prior pa (hs_n d) (hs_dim d)) (map (hs_y d) rs))) /\
    (forall k, (k < hs_n d)%nat -> Xq q = hs_X d k -> In k rs).
Proof. exact (reg64_queries fdot fmv fsum flog fgammaln fpow f2pi pp delta pre prec srt dim prn lvl pa cands d t). Qed.
Print Assumptions C89_reg_queries.

(** A row that is clearly on one side of a plane in exact arithmetic is routed to that side. *)
Theorem C89_side fdot fmv dim Xq q pl : blas fdot -> blas fmv -> INR dim <= b2 20 -> plane64 dim pl -> row64 dim (Xq q) ->
  let gap := xdot (Xq q) (p_normal pl) - xdot (p_origin pl) (p_normal pl) in
  let bound := dot_bound dim (Xq q) (p_normal pl) + dot_bound dim (p_origin pl) (p_normal pl) in
  (gap < - bound -> h64_back fdot fmv Xq pl q = true /\ h64_front fdot fmv Xq pl q = false) /\
  (bound < gap -> h64_back fdot fmv Xq pl q = false /\ h64_front fdot fmv Xq pl q = true).
Proof. exact (side64 fdot fmv dim Xq q pl). Qed.
Print Assumptions C89_side.

(** Rows of tiny numbers and differences of two rows as candidates, as in RandomTwoPointOptimizer: the tree is one leaf. *)
Theorem C89_tiny {C} fdot fmv fsum flog fgammaln fbetaln fpow pp delta (pre : C -> list float64) prec srt dim prn lvl pa cands d t :
  blas fdot -> (0 < hs_n d)%nat -> (forall i, (i < hs_n d)%nat -> length (hs_X d i) = dim /\ Forall (within (b2 (-539))) (hs_X d i)) ->
  (forall path c, In c (cands path) -> row_difference d (pre c)) ->
  hcl64_fit fdot fmv fsum flog fgammaln fbetaln fpow pp delta pre prec srt prn lvl pa cands d = Ok t ->
  t = Leaf (info t) /\ i_n_data (info t) = hs_n d.
Proof. exact (clf64_tiny fdot fmv fsum flog fgammaln fbetaln fpow pp delta pre prec srt dim prn lvl pa cands d t). Qed.
Print Assumptions C89_tiny.

(** ** Cases *)
Example C89_dot : blas f_dot.
Proof. exact dot_left_to_right. Qed.
(** Four rows in two dimensions; the candidates include NaN and an infinity. *)
Example C89_case : h64_setting (fun v => v) case_cands case_set 2.
Proof. exact case_setting. Qed.
Example C89_side_case : plane64 2 case_plane /\ row64 2 (hs_X case_set 0) /\
  xdot (hs_X case_set 0) (p_normal case_plane) - xdot (p_origin case_plane) (p_normal case_plane) <
    - (dot_bound 2 (hs_X case_set 0) (p_normal case_plane) + dot_bound 2 (p_origin case_plane) (p_normal case_plane)).
Proof. exact case_side. Qed.
Example C89_tiny_case : (0 < hs_n tiny_set)%nat /\ (forall i, (i < hs_n tiny_set)%nat -> length (hs_X tiny_set i) = 1%nat /\ Forall (within (b2 (-539))) (hs_X tiny_set i)) /\
  row_difference tiny_set (map2 f_sub (hs_X tiny_set 1) (hs_X tiny_set 0)).
Proof. exact tiny_case. Qed.
