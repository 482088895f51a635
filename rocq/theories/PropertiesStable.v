(** * Float64 classification against exact arithmetic: C83 and C84. *)
From Coq Require Import Reals Lra Permutation Sorted String.
From Flocq Require Import Core BinarySingleNaN.
From Verif Require Import Prelude Lists Tree Perp RealOps Clf Reg Api Spec PredictProofs OptProofs Gamma Exec
  ApiSpec ApiProofs ClfSpec Routing FloatFeat FloatProofs NumApi FloatReg FloatSum FloatNG FloatClf FloatClfSum Witness NumWitness FloatWitness
  FloatClfErr FloatSame StableFit FloatOracle StableEx.
Local Open Scope R_scope.

(** ** C83: a fit entirely in float64 is best up to the accumulated error *)
(** Every split down to level [depth] is, in exact arithmetic, within [2 tau] of the best split and of stopping; the stored scores are
    within [tau] of the exact values; without pruning every leaf stops rightly up to [2 tau]. *)
Theorem C83_near_best fsum flog fgammaln fbetaln fpow pp delta k depth prior lab el eb B p srt srt' (d : tset float64 float64) same do_prune t :
  is_finite p = true /\ B2R p = 0 -> sorts fleb srt -> sorts Rleb srt' ->
  (forall c, (c < ts_dim d)%nat -> srt' (fun i => B2R (ts_X d i c)) (ts_n d) = srt (fun i => ts_X d i c) (ts_n d)) ->
  finite_entries 53 1024 (ts_X d) (ts_n d) (ts_dim d) -> separable 53 1024 prec64_pos prec64_lt p (ts_X d) (ts_n d) (ts_dim d) ->
  clf64_setting fsum flog fgammaln fbetaln fpow pp delta k depth prior lab el eb B d ->
  perp_fit (feat_f p srt) (cl64_lik fsum flog fgammaln fbetaln fpow pp delta) same do_prune 0 (Some prior) d = Ok t ->
  let dR := exact_set lab d (fun i c => B2R (ts_X d i c)) in
  nodes_ok (f_left (ts_X d)) (f_right (ts_X d))
    (near_split_node (thr_f (ts_X d)) (B2R pp) 0 (clf_ev (map B2R prior)) (clf_tau el eb B) depth dR) (seq 0 (ts_n d)) t /\
  (do_prune = false -> nodes_ok (f_left (ts_X d)) (f_right (ts_X d))
    (near_leaf_node (B2R pp) 0 (clf_ev (map B2R prior)) (clf_tau el eb B) depth dR) (seq 0 (ts_n d)) t).
Proof. intros H1 H2 H3 H4 H5 H6 H7 E. exact (near_float fsum flog fgammaln fbetaln fpow pp delta k depth prior lab el eb B p srt srt' d H1 H2 H3 H4 H5 H6 H7 same do_prune t E). Qed.
Print Assumptions C83_near_best.

(** Where no decision of the exact tree is closer than [2 tau], the float64 tree is its copy. *)
Theorem C83_same_tree fsum flog fgammaln fbetaln fpow pp delta k depth prior lab el eb B p srt srt' (d : tset float64 float64) h te same t :
  is_finite p = true /\ B2R p = 0 -> sorts fleb srt -> sorts Rleb srt' ->
  (forall c, (c < ts_dim d)%nat -> srt' (fun i => B2R (ts_X d i c)) (ts_n d) = srt (fun i => ts_X d i c) (ts_n d)) ->
  finite_entries 53 1024 (ts_X d) (ts_n d) (ts_dim d) -> separable 53 1024 prec64_pos prec64_lt p (ts_X d) (ts_n d) (ts_dim d) ->
  clf64_setting fsum flog fgammaln fbetaln fpow pp delta k depth prior lab el eb B d ->
  let dR := exact_set lab d (fun i c => B2R (ts_X d i c)) in
  clf_setting srt' k (map B2R prior) h dR -> h_prune h = false -> h_delta h = 0 -> h_pp h = B2R pp -> h_prec h = 0 ->
  clf_fit srt' h dR = Ok te -> every_node dR te (clear_node (B2R pp) 0 (clf_ev (map B2R prior)) (clf_tau el eb B) depth dR) ->
  perp_fit (feat_f p srt) (cl64_lik fsum flog fgammaln fbetaln fpow pp delta) same false 0 (Some prior) d = Ok t ->
  float_copy (ts_X d) (seq 0 (ts_n d)) te t.
Proof.
  intros H1 H2 H3 H4 H5 H6 H7 dR K1 K2 K3 K4 K5 Ee Hc E.
  exact (same_float fsum flog fgammaln fbetaln fpow pp delta k depth prior lab el eb B p srt srt' d H1 H2 H3 H4 H5 H6 H7 h te same t K1 K2 K3 K4 K5 Ee Hc E).
Qed.
Print Assumptions C83_same_tree.

(** What the setting asks of the logarithms follows from the error of [log] and [**] alone. *)
Theorem C83_logs flog fpow pp n n_dim depth eps rho delta :
  0 < B2R pp < 1 -> b2 (-900) <= B2R pp ^ (1 + depth) -> b2 (-900) <= 1 - B2R pp ->
  (0 < n_dim)%nat -> (Z.of_nat (n * n_dim) < 2 ^ 53)%Z ->
  log_accurate flog eps -> eps <= 1 -> pow_accurate fpow pp depth rho -> 0 <= rho <= delta * (1 - B2R pp) -> delta <= / 8 ->
  logs_within flog fpow pp n n_dim depth (eps + 2 * delta + 4 * u53) 1000.
Proof. exact (logs_accurate flog fpow pp n n_dim depth eps rho delta). Qed.
Print Assumptions C83_logs.
(** For two classes and integer priors the condition on [multivariate_betaln] is the error of [betaln]; *)
Theorem C83_betaln_two fsum fgammaln fbetaln a b n eb B : (1 <= a)%nat -> (1 <= b)%nat -> (Z.of_nat (a + b + n) < 2 ^ 53)%Z ->
  betaln_accurate fbetaln (a + b + n) eb B -> betaln_within fsum fgammaln fbetaln [f_nat a; f_nat b] n eb B.
Proof. exact (betaln_two fsum fgammaln fbetaln a b n eb B). Qed.
Print Assumptions C83_betaln_two.
(** for more classes it follows from the error of [gammaln], for every order of the additions of [np.sum]. *)
Theorem C83_betaln_many fsum fgammaln fbetaln ps n eg G : (3 <= List.length ps)%nat -> INR (List.length ps) <= b2 20 -> Forall (fun a => (1 <= a)%nat) ps ->
  (Z.of_nat (list_sum ps + n) < 2 ^ 53)%Z -> (forall l, sum_of l (fsum l)) -> gammaln_accurate fgammaln (list_sum ps + n) eg G -> G <= b2 900 ->
  betaln_within fsum fgammaln fbetaln (map f_nat ps) n (beta_err (List.length ps) eg G) (beta_size (List.length ps) G).
Proof. exact (betaln_many fsum fgammaln fbetaln ps n eg G). Qed.
Print Assumptions C83_betaln_many.

(** The conditions hold of correctly rounded functions, and the rows 1 and 2 of the classes 0 and 1 are split clearly. *)
Example C83_library : log_accurate log_cr (b2 (-41)) /\ pow_accurate pow_cr f_half 3 0 /\ betaln_accurate betaln_cr 1000 (b2 (-30)) (b2 22) /\
  gammaln_accurate gammaln_cr 1000 (b2 (-32)) (b2 20).
Proof. split; [exact log_cr_accurate|]. split; [apply pow_cr_accurate; lia|]. split; [apply betaln_cr_accurate, le_n|apply gammaln_cr_accurate, le_n]. Qed.
Example C83_example srt : sorts fleb srt ->
  (is_finite f0 = true /\ B2R f0 = 0) /\ sorts Rleb (argsort_by Rleb) /\
  (forall c, (c < ts_dim label_set)%nat -> argsort_by Rleb (fun i => B2R (ts_X label_set i c)) (ts_n label_set) = srt (fun i => ts_X label_set i c) (ts_n label_set)) /\
  finite_entries 53 1024 (ts_X label_set) (ts_n label_set) (ts_dim label_set) /\
  separable 53 1024 prec64_pos prec64_lt f0 (ts_X label_set) (ts_n label_set) (ts_dim label_set) /\
  clf64_setting f_sum log_cr gammaln_cr betaln_cr pow_cr f_half f_zero 2 3 [f_nat 1; f_nat 1] (fun i => i) (b2 (-41) + 2 * 0 + 4 * u53) (b2 (-30)) (b2 22) label_set /\
  clf_setting (argsort_by Rleb) 2 (map B2R [f_nat 1; f_nat 1]) half_h two_exact /\
  exists te, clf_fit (argsort_by Rleb) half_h two_exact = Ok te /\
    every_node two_exact te (clear_node (B2R f_half) 0 (clf_ev (map B2R [f_nat 1; f_nat 1])) two_tau 3 two_exact) /\
    exists i d a b c1 c2, te = Split i d a b c1 c2.
Proof.
  intros Hs. destruct (two_float srt Hs) as (H1 & H2 & H3 & H4 & H5). split; [exact H1|]. split; [exact H2|]. split; [exact H3|]. split; [exact H4|]. split; [exact H5|].
  split; [exact two_set|]. split; [exact two_setting|]. exact two_clear.
Qed.

(** ** C84: with split precision 0, float64 features decide as exact ones *)
(** Whatever the targets and the evidence: same features, names, scores, node data; thresholds are the computed and the exact midpoints of the same values. *)
Theorem C84_decisions Y P S p srt srt' (L : lik Y P S) same do_prune lvl pa (d : tset float64 Y) t :
  is_finite p = true -> B2R p = 0 -> permutes srt -> tset_ok d -> finite_entries 53 1024 (ts_X d) (ts_n d) (ts_dim d) ->
  (forall c, (c < ts_dim d)%nat -> srt' (fun i => B2R (ts_X d i c)) (ts_n d) = srt (fun i => ts_X d i c) (ts_n d)) ->
  perp_fit (feat_f p srt) L same do_prune lvl pa d = Ok t ->
  exists t', perp_fit (feat_R 0 srt') L same do_prune lvl pa (B2R_set d) = Ok t' /\ same_decisions p srt srt' d t t'.
Proof. exact (float_same p srt srt' L same do_prune lvl pa d t). Qed.
Print Assumptions C84_decisions.
(** On separable data the training rows reach the same leaves. *)
Theorem C84_training_rows Y P S p srt srt' (L : lik Y P S) same do_prune lvl pa (d : tset float64 Y) t :
  is_finite p = true -> B2R p = 0 -> sorts fleb srt -> tset_ok d -> finite_entries 53 1024 (ts_X d) (ts_n d) (ts_dim d) ->
  separable 53 1024 prec64_pos prec64_lt p (ts_X d) (ts_n d) (ts_dim d) ->
  (forall c, (c < ts_dim d)%nat -> srt' (fun i => B2R (ts_X d i c)) (ts_n d) = srt (fun i => ts_X d i c) (ts_n d)) ->
  perp_fit (feat_f p srt) L same do_prune lvl pa d = Ok t ->
  exists t', perp_fit (feat_R 0 srt') L same do_prune lvl pa (B2R_set d) = Ok t' /\
    forall r, (r < ts_n d)%nat -> exists i, reaches (fun s => f_left (ts_X d) s r = true) (fun s => f_right (ts_X d) s r = true) t i /\
      reaches (fun s => goes_left (ts_X (B2R_set d)) s r = true) (fun s => goes_right (ts_X (B2R_set d)) s r = true) t' i.
Proof. exact (fit_same_leaves p srt srt' L same do_prune lvl pa d t). Qed.
Print Assumptions C84_training_rows.
Theorem C84_training_classes p srt srt' h (d : tset float64 R) t :
  is_finite p = true -> B2R p = 0 -> sorts fleb srt -> tset_ok d -> finite_entries 53 1024 (ts_X d) (ts_n d) (ts_dim d) ->
  separable 53 1024 prec64_pos prec64_lt p (ts_X d) (ts_n d) (ts_dim d) ->
  (forall c, (c < ts_dim d)%nat -> srt' (fun i => B2R (ts_X d i c)) (ts_n d) = srt (fun i => ts_X d i c) (ts_n d)) ->
  fclf_fit srt p h d = Ok t ->
  exists t', clf_fit srt' (mkHyper (h_pp h) (h_prior h) (h_delta h) (h_prune h) 0) (B2R_set d) = Ok t' /\
    fclf_predict t (ts_X d) (ts_n d) = clf_predict t' (ts_X (B2R_set d)) (ts_n d) /\
    fclf_predict_proba t (ts_X d) (ts_n d) = clf_predict_proba t' (ts_X (B2R_set d)) (ts_n d).
Proof. exact (fclf_same_training p srt srt' h d t). Qed.
Print Assumptions C84_training_classes.
(** Other rows need not: a query equal to the computed threshold and below the exact one. *)
Theorem C84_query_refuted : exists (d : tset float64 R) (h : hyper (list R)) (q : nat -> nat -> float64), forall srt, sorts fleb srt -> exists t t',
  tset_ok d /\ finite_entries 53 1024 (ts_X d) (ts_n d) (ts_dim d) /\ separable 53 1024 prec64_pos prec64_lt f0 (ts_X d) (ts_n d) (ts_dim d) /\ (forall i c, is_finite (q i c) = true) /\
  fclf_fit srt f0 h d = Ok t /\ clf_fit (argsort_by Rleb) h (B2R_set d) = Ok t' /\
  fclf_predict t q 1 = [1] /\ clf_predict t' (fun i c => B2R (q i c)) 1 = [0].
Proof. exact query_differs. Qed.
Print Assumptions C84_query_refuted.
Example C84_example srt : sorts fleb srt -> is_finite f0 = true /\ B2R f0 = 0 /\ permutes srt /\ tset_ok label_set /\
  finite_entries 53 1024 (ts_X label_set) (ts_n label_set) (ts_dim label_set) /\
  separable 53 1024 prec64_pos prec64_lt f0 (ts_X label_set) (ts_n label_set) (ts_dim label_set) /\
  (forall c, (c < ts_dim label_set)%nat -> argsort_by Rleb (fun i => B2R (ts_X label_set i c)) (ts_n label_set) = srt (fun i => ts_X label_set i c) (ts_n label_set)).
Proof.
  intros Hs. destruct (two_float srt Hs) as ((H1 & H1') & _ & H3 & H4 & H5). split; [exact H1|]. split; [exact H1'|]. split; [intros key m; apply Hs|].
  split; [apply label_ok|]. split; [exact H4|]. split; [exact H5|exact H3].
Qed.
