(** * Float64 regression against exact arithmetic: C85 and C86. *)
From Coq Require Import Reals Lra Permutation Sorted String.
From Flocq Require Import Core BinarySingleNaN.
From Verif Require Import Prelude Lists Tree Perp RealOps Gamma Reg Api Spec PredictProofs OptProofs Exec
  ApiSpec ApiProofs RegSpec RegProofs Routing FloatFeat FloatProofs NumApi FloatReg FloatSum FloatNG FloatClfSum Witness NumWitness FloatWitness
  FloatClfErr FloatOracle StableFit StableEx FloatRegErr FloatRegScore FloatRegFit FloatRegEx.
Local Open Scope R_scope.

(** ** C85: posteriors and predictions computed in float64 *)
(** Whatever the logarithm, gamma function and power return and whatever the order of the additions of [np.sum], the posterior of
    every node is close to the exact posterior of the training rows routed to it; with and without pruning. *)
Theorem C85_posteriors fsum flog fgammaln fpow f2pi pp delta p srt same do_prune lvl pa (d : tset float64 float64) prior M t :
  (forall l, sum_of l (fsum l)) -> Beqb delta f_zero = true -> freg_get_prior pa (ts_n d) (ts_dim d) = prior ->
  INR (ts_n d) <= b2 20 -> 1 <= M <= b2 300 -> sized_prior M prior -> (forall i, (i < ts_n d)%nat -> sized M (ts_y d i)) ->
  Bltb p f_zero = false -> sorts fleb srt -> tset_ok d -> finite_entries 53 1024 (ts_X d) (ts_n d) (ts_dim d) ->
  separable 53 1024 prec64_pos prec64_lt p (ts_X d) (ts_n d) (ts_dim d) ->
  perp_fit (feat_f p srt) (freg_lik fsum flog fgammaln fpow f2pi pp delta) same do_prune lvl pa d = Ok t ->
  nodes_ok (f_left (ts_X d)) (f_right (ts_X d)) (fun rows u => rows <> [] /\ i_n_data (info u) = List.length rows /\
    let q := i_post (info u) in let x := ng_update 1 (ng_val prior) (map (fun i => B2R (ts_y d i)) rows) in let w := INR (ts_n d) * INR (ts_n d) * b2 (-53) in
    is_finite (fn_mu q) = true /\ Rabs (B2R (fn_mu q) - ng_mu x) <= 25 * w * M /\
    is_finite (fn_kappa q) = true /\ Rabs (B2R (fn_kappa q) - ng_kappa x) <= b2 (-53) * ng_kappa x /\
    is_finite (fn_alpha q) = true /\ Rabs (B2R (fn_alpha q) - ng_alpha x) <= b2 (-53) * ng_alpha x /\
    is_finite (fn_beta q) = true /\ Rabs (B2R (fn_beta q) - ng_beta x) <= 52 * w * (B2R (fn_beta prior) + (1 + 2 * B2R (fn_kappa prior)) * (M * M)))
    (seq 0 (ts_n d)) t.
Proof. exact (posteriors_close fsum flog fgammaln fpow f2pi pp delta p srt same do_prune lvl pa d prior M t). Qed.
Print Assumptions C85_posteriors.
(** Every query without NaN gets a number close to the exact posterior mean of the training rows of one leaf; a query equal to a
    training row, of the leaf that holds this row. *)
Theorem C85_predictions fsum flog fgammaln fpow f2pi pp delta p srt same do_prune lvl pa (d : tset float64 float64) prior M t :
  (forall l, sum_of l (fsum l)) -> Beqb delta f_zero = true -> freg_get_prior pa (ts_n d) (ts_dim d) = prior ->
  INR (ts_n d) <= b2 20 -> 1 <= M <= b2 300 -> sized_prior M prior -> (forall i, (i < ts_n d)%nat -> sized M (ts_y d i)) ->
  Bltb p f_zero = false -> sorts fleb srt -> tset_ok d -> finite_entries 53 1024 (ts_X d) (ts_n d) (ts_dim d) ->
  separable 53 1024 prec64_pos prec64_lt p (ts_X d) (ts_n d) (ts_dim d) ->
  perp_fit (feat_f p srt) (freg_lik fsum flog fgammaln fpow f2pi pp delta) same do_prune lvl pa d = Ok t ->
  forall Xq m q, (q < m)%nat -> (forall c, (c < ts_dim d)%nat -> is_nan (Xq q c) = false) ->
  exists a rs, nth_error (freg_predict t Xq m) q = Some a /\ is_finite a = true /\ rs <> [] /\ (forall i, In i rs -> (i < ts_n d)%nat) /\
    Rabs (B2R a - ng_mu (ng_update 1 (ng_val prior) (map (fun i => B2R (ts_y d i)) rs))) <= 25 * (INR (ts_n d) * INR (ts_n d) * u53) * M /\
    (forall i, (i < ts_n d)%nat -> (forall c, Xq q c = ts_X d i c) -> In i rs).
Proof. exact (freg_predictions fsum flog fgammaln fpow f2pi pp delta p srt same do_prune lvl pa d prior M t). Qed.
Print Assumptions C85_predictions.
(** The computed default prior is the exact one. *)
Theorem C85_default n n_dim : (Z.of_nat n < 2 ^ 21)%Z ->
  ng_val (freg_get_prior None n n_dim) = default_ng n /\ forall M, 1 <= M -> sized_prior M (freg_get_prior None n n_dim).
Proof. exact (default_values n n_dim). Qed.
Print Assumptions C85_default.
Example C85_example (srt : (nat -> float64) -> nat -> list nat) : sorts fleb srt -> (forall l, sum_of l (f_sum l)) /\ Beqb f_zero f_zero = true /\ INR (ts_n pm_set) <= b2 20 /\ 1 <= 2 <= b2 300 /\
  sized_prior 2 pm_prior /\ (forall i, (i < ts_n pm_set)%nat -> sized 2 (ts_y pm_set i)) /\ Bltb f0 f_zero = false /\ tset_ok pm_set /\
  finite_entries 53 1024 (ts_X pm_set) (ts_n pm_set) (ts_dim pm_set) /\ separable 53 1024 prec64_pos prec64_lt f0 (ts_X pm_set) (ts_n pm_set) (ts_dim pm_set).
Proof.
  intros Hs. destruct (two_float srt Hs) as (_ & _ & _ & H4 & H5). destruct pm_setting as [K1 K2 K3 K4 K5 K6 K7 _ _ _ _ _].
  split; [exact K3|]. split; [exact K2|]. split; [exact K4|]. split; [exact K5|]. split; [exact K6|]. split; [exact K7|]. split; [reflexivity|]. split; [exact K1|]. split; [exact H4|exact H5].
Qed.

(** ** C86: a regression fit entirely in float64 is best up to the accumulated error *)
(** Every split down to level [depth] is, in exact arithmetic, within [2 tau] of the best split and of stopping; the stored scores are
    within [tau] of the exact values; without pruning every leaf stops rightly up to [2 tau]. *)
Theorem C86_near_best fsum flog fgammaln fpow f2pi pp delta depth pa M el eps eg G p srt srt' (d : tset float64 float64) same do_prune t :
  is_finite p = true /\ B2R p = 0 -> sorts fleb srt -> sorts Rleb srt' ->
  (forall c, (c < ts_dim d)%nat -> srt' (fun i => B2R (ts_X d i c)) (ts_n d) = srt (fun i => ts_X d i c) (ts_n d)) ->
  finite_entries 53 1024 (ts_X d) (ts_n d) (ts_dim d) -> separable 53 1024 prec64_pos prec64_lt p (ts_X d) (ts_n d) (ts_dim d) ->
  let prior := freg_get_prior pa (ts_n d) (ts_dim d) in
  reg64_setting fsum flog fgammaln fpow f2pi pp delta depth prior M el eps eg G d ->
  perp_fit (feat_f p srt) (freg_lik fsum flog fgammaln fpow f2pi pp delta) same do_prune 0 pa d = Ok t ->
  let dR := reg_exact_set d (fun i c => B2R (ts_X d i c)) in let tau := reg_tau el eps eg G (ts_n d) M prior in
  nodes_ok (f_left (ts_X d)) (f_right (ts_X d)) (near_split_node (thr_f (ts_X d)) (B2R pp) 0 (ng_logev (ng_val prior)) tau depth dR) (seq 0 (ts_n d)) t /\
  (do_prune = false -> nodes_ok (f_left (ts_X d)) (f_right (ts_X d)) (near_leaf_node (B2R pp) 0 (ng_logev (ng_val prior)) tau depth dR) (seq 0 (ts_n d)) t).
Proof. intros H1 H2 H3 H4 H5 H6 prior H7 E. exact (reg_near fsum flog fgammaln fpow f2pi pp delta depth pa M el eps eg G p srt srt' d H1 H2 H3 H4 H5 H6 H7 same do_prune t E). Qed.
Print Assumptions C86_near_best.
(** Where no decision of the exact tree is closer than [2 tau], the float64 tree is its copy. *)
Theorem C86_same_tree fsum flog fgammaln fpow f2pi pp delta depth pa M el eps eg G p srt srt' (d : tset float64 float64) h te same t :
  is_finite p = true /\ B2R p = 0 -> sorts fleb srt -> sorts Rleb srt' ->
  (forall c, (c < ts_dim d)%nat -> srt' (fun i => B2R (ts_X d i c)) (ts_n d) = srt (fun i => ts_X d i c) (ts_n d)) ->
  finite_entries 53 1024 (ts_X d) (ts_n d) (ts_dim d) -> separable 53 1024 prec64_pos prec64_lt p (ts_X d) (ts_n d) (ts_dim d) ->
  let prior := freg_get_prior pa (ts_n d) (ts_dim d) in
  reg64_setting fsum flog fgammaln fpow f2pi pp delta depth prior M el eps eg G d ->
  let dR := reg_exact_set d (fun i c => B2R (ts_X d i c)) in let tau := reg_tau el eps eg G (ts_n d) M prior in
  reg_setting srt' (ng_val prior) h dR -> h_prior h = option_map ng_val pa -> h_prune h = false -> h_delta h = 0 -> h_pp h = B2R pp -> h_prec h = 0 ->
  reg_fit srt' h dR = Ok te -> every_node dR te (clear_node (B2R pp) 0 (ng_logev (ng_val prior)) tau depth dR) ->
  perp_fit (feat_f p srt) (freg_lik fsum flog fgammaln fpow f2pi pp delta) same false 0 pa d = Ok t ->
  float_copy (ts_X d) (seq 0 (ts_n d)) te t.
Proof.
  intros H1 H2 H3 H4 H5 H6 prior H7 dR tau K1 K2 K3 K4 K5 K6 Ee Hc E.
  exact (reg_same_tree fsum flog fgammaln fpow f2pi pp delta depth pa M el eps eg G p srt srt' d H1 H2 H3 H4 H5 H6 H7 h te same t K1 K2 K3 K4 K5 K6 Ee Hc E).
Qed.
Print Assumptions C86_same_tree.
(** Then the computed predictions of the training rows are those of the exact tree up to the error of the posterior means. *)
Theorem C86_training fsum flog fgammaln fpow f2pi pp delta depth pa M el eps eg G p srt srt' (d : tset float64 float64) h te same t :
  is_finite p = true /\ B2R p = 0 -> sorts fleb srt -> sorts Rleb srt' ->
  (forall c, (c < ts_dim d)%nat -> srt' (fun i => B2R (ts_X d i c)) (ts_n d) = srt (fun i => ts_X d i c) (ts_n d)) ->
  finite_entries 53 1024 (ts_X d) (ts_n d) (ts_dim d) -> separable 53 1024 prec64_pos prec64_lt p (ts_X d) (ts_n d) (ts_dim d) ->
  let prior := freg_get_prior pa (ts_n d) (ts_dim d) in
  reg64_setting fsum flog fgammaln fpow f2pi pp delta depth prior M el eps eg G d ->
  let dR := reg_exact_set d (fun i c => B2R (ts_X d i c)) in let tau := reg_tau el eps eg G (ts_n d) M prior in
  reg_setting srt' (ng_val prior) h dR -> h_prior h = option_map ng_val pa -> h_prune h = false -> h_delta h = 0 -> h_pp h = B2R pp -> h_prec h = 0 ->
  reg_fit srt' h dR = Ok te -> every_node dR te (clear_node (B2R pp) 0 (ng_logev (ng_val prior)) tau depth dR) ->
  perp_fit (feat_f p srt) (freg_lik fsum flog fgammaln fpow f2pi pp delta) same false 0 pa d = Ok t ->
  forall r, (r < ts_n d)%nat -> exists a b, nth_error (freg_predict t (ts_X d) (ts_n d)) r = Some a /\
    nth_error (reg_predict te (fun i c => B2R (ts_X d i c)) (ts_n d)) r = Some b /\
    is_finite a = true /\ Rabs (B2R a - b) <= 25 * (INR (ts_n d) * INR (ts_n d) * u53) * M.
Proof.
  intros H1 H2 H3 H4 H5 H6 prior H7 dR tau K1 K2 K3 K4 K5 K6 Ee Hc E.
  exact (reg_training fsum flog fgammaln fpow f2pi pp delta depth pa M el eps eg G p srt srt' d H1 H2 H3 H4 H5 H6 H7 h te same t K1 K2 K3 K4 K5 K6 Ee Hc E).
Qed.
Print Assumptions C86_training.
(** The rows 1 and 2 with the targets -2 and 2 and the default prior: correctly rounded library functions, a clear split. *)
Example C86_example (srt : (nat -> float64) -> nat -> list nat) : sorts fleb srt ->
  (is_finite f0 = true /\ B2R f0 = 0) /\ sorts Rleb (argsort_by Rleb) /\
  (forall c, (c < ts_dim pm_set)%nat -> argsort_by Rleb (fun i => B2R (ts_X pm_set i c)) (ts_n pm_set) = srt (fun i => ts_X pm_set i c) (ts_n pm_set)) /\
  reg64_setting f_sum log_cr gammaln_cr pow_cr two_pi f_half f_zero 3 pm_prior 2 pm_el (b2 (-41)) (b2 (-52)) 1 pm_set /\
  reg_setting (argsort_by Rleb) (ng_val pm_prior) pm_h pm_exact /\
  exists te, reg_fit (argsort_by Rleb) pm_h pm_exact = Ok te /\
    every_node pm_exact te (clear_node (B2R f_half) 0 (ng_logev (ng_val pm_prior)) pm_tau 3 pm_exact) /\
    exists i d a b c1 c2, te = Split i d a b c1 c2.
Proof.
  intros Hs. destruct (two_float srt Hs) as (H1 & H2 & H3 & _ & _). split; [exact H1|]. split; [exact H2|]. split; [exact H3|].
  split; [exact pm_setting|]. split; [exact pm_real|exact pm_clear].
Qed.
