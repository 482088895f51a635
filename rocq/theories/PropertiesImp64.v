(** * Feature importance in float64: C87. *)
From Coq Require Import Reals Lra Permutation Sorted String.
From Flocq Require Import Core BinarySingleNaN.
From Verif Require Import Prelude Lists Tree Perp RealOps Gamma Clf Reg Api Spec PredictProofs OptProofs Exec
  ApiSpec ApiProofs ClfSpec RegSpec Importance ImportanceSpec FloatFeat FloatProofs NumApi FloatReg FloatSum FloatNG FloatClf FloatClfSum Witness NumWitness FloatWitness
  FloatClfErr FloatOracle StableFit StableEx FloatRegErr FloatRegScore FloatRegFit FloatRegEx FloatImp FloatImpSpec FloatImpProofs FloatImpFit FloatImpEx.
Local Open Scope R_scope.

(** ** C87: the importances of a tree fitted in float64 *)
(** Both kinds of trees, any features: finite, between 0 and 1, close to the exact shares of the recorded gains. *)
Theorem C87_clf {A V} (F : feat A V) fsum flog fgammaln fbetaln fpow pp delta same do_prune pa (d : tset A float64) t :
  (forall l, sum_of l (fsum l)) -> permutes (f_argsort F) -> tset_ok d -> (Z.of_nat (ts_n d + ts_dim d) <= 2 ^ 20)%Z ->
  perp_fit F (cl64_lik fsum flog fgammaln fbetaln fpow pp delta) same do_prune 0 pa d = Ok t -> splits t <> [] -> scores_finite t ->
  exists v, f_feature_importance fsum t = Ok v /\ importance64 (ts_dim d) t v.
Proof. exact (fit_importance64 F (cl64_lik fsum flog fgammaln fbetaln fpow pp delta) fsum same do_prune 0 pa d t eq_refl). Qed.
Print Assumptions C87_clf.
Theorem C87_reg {A V} (F : feat A V) fsum flog fgammaln fpow f2pi pp delta same do_prune pa (d : tset A float64) t :
  (forall l, sum_of l (fsum l)) -> permutes (f_argsort F) -> tset_ok d -> (Z.of_nat (ts_n d + ts_dim d) <= 2 ^ 20)%Z ->
  perp_fit F (freg_lik fsum flog fgammaln fpow f2pi pp delta) same do_prune 0 pa d = Ok t -> splits t <> [] -> scores_finite t ->
  exists v, f_feature_importance fsum t = Ok v /\ importance64 (ts_dim d) t v.
Proof. exact (fit_importance64 F (freg_lik fsum flog fgammaln fpow f2pi pp delta) fsum same do_prune 0 pa d t eq_refl). Qed.
Print Assumptions C87_reg.

(** Without a split the quotient is 0/0: every entry is NaN. *)
Theorem C87_leaf_nan {V P} fsum n_dim (i : ninfo P) : (forall l, sum_of l (fsum l)) -> i_n_dim i = Some n_dim ->
  f_feature_importance fsum (Leaf i : tree (pdesc string V) float64 P) = Ok (repeat B754_nan n_dim).
Proof. exact (leaf_importance64 fsum n_dim i). Qed.
Print Assumptions C87_leaf_nan.

(** Where the decisions of the exact tree are clear, the importances are close to those of the exact tree. *)
Theorem C87_exact_clf fsum flog fgammaln fbetaln fpow pp delta k depth prior lab el eb B p srt srt' (d : tset float64 float64) h te same t :
  is_finite p = true /\ B2R p = 0 -> sorts fleb srt -> sorts Rleb srt' ->
  (forall c, (c < ts_dim d)%nat -> srt' (fun i => B2R (ts_X d i c)) (ts_n d) = srt (fun i => ts_X d i c) (ts_n d)) ->
  finite_entries 53 1024 (ts_X d) (ts_n d) (ts_dim d) -> separable 53 1024 prec64_pos prec64_lt p (ts_X d) (ts_n d) (ts_dim d) ->
  clf64_setting fsum flog fgammaln fbetaln fpow pp delta k depth prior lab el eb B d ->
  let dR := exact_set lab d (fun i c => B2R (ts_X d i c)) in let tau := clf_tau el eb B in
  clf_setting srt' k (map B2R prior) h dR -> h_prune h = false -> h_delta h = 0 -> h_pp h = B2R pp -> h_prec h = 0 ->
  clf_fit srt' h dR = Ok te -> every_node dR te (clear_node (B2R pp) 0 (clf_ev (map B2R prior)) tau depth dR) ->
  perp_fit (feat_f p srt) (cl64_lik fsum flog fgammaln fbetaln fpow pp delta) same false 0 (Some prior) d = Ok t ->
  (forall l, sum_of l (fsum l)) -> (Z.of_nat (ts_n d + ts_dim d) <= 2 ^ 20)%Z -> tau <= b2 898 -> scores_below te -> splits te <> [] ->
  exists v w, f_feature_importance fsum t = Ok v /\ feature_importance te = Ok (map Some w) /\ importances_close (ts_dim d) tau te v w.
Proof. exact (clf_importance64 fsum flog fgammaln fbetaln fpow pp delta k depth prior lab el eb B p srt srt' d h te same t). Qed.
Print Assumptions C87_exact_clf.
Theorem C87_exact_reg fsum flog fgammaln fpow f2pi pp delta depth pa M el eps eg G p srt srt' (d : tset float64 float64) h te same t :
  is_finite p = true /\ B2R p = 0 -> sorts fleb srt -> sorts Rleb srt' ->
  (forall c, (c < ts_dim d)%nat -> srt' (fun i => B2R (ts_X d i c)) (ts_n d) = srt (fun i => ts_X d i c) (ts_n d)) ->
  finite_entries 53 1024 (ts_X d) (ts_n d) (ts_dim d) -> separable 53 1024 prec64_pos prec64_lt p (ts_X d) (ts_n d) (ts_dim d) ->
  let prior := freg_get_prior pa (ts_n d) (ts_dim d) in
  reg64_setting fsum flog fgammaln fpow f2pi pp delta depth prior M el eps eg G d ->
  let dR := reg_exact_set d (fun i c => B2R (ts_X d i c)) in let tau := reg_tau el eps eg G (ts_n d) M prior in
  reg_setting srt' (ng_val prior) h dR -> h_prior h = option_map ng_val pa -> h_prune h = false -> h_delta h = 0 -> h_pp h = B2R pp -> h_prec h = 0 ->
  reg_fit srt' h dR = Ok te -> every_node dR te (clear_node (B2R pp) 0 (ng_logev (ng_val prior)) tau depth dR) ->
  perp_fit (feat_f p srt) (freg_lik fsum flog fgammaln fpow f2pi pp delta) same false 0 pa d = Ok t ->
  (forall l, sum_of l (fsum l)) -> (Z.of_nat (ts_n d + ts_dim d) <= 2 ^ 20)%Z -> tau <= b2 898 -> scores_below te -> splits te <> [] ->
  exists v w, f_feature_importance fsum t = Ok v /\ feature_importance te = Ok (map Some w) /\ importances_close (ts_dim d) tau te v w.
Proof. exact (reg_importance64 fsum flog fgammaln fpow f2pi pp delta depth pa M el eps eg G p srt srt' d h te same t). Qed.
Print Assumptions C87_exact_reg.

(** ** Concrete cases that meet the hypotheses *)
Example C87_fit (srt : (nat -> float64) -> nat -> list nat) same : sorts fleb srt ->
  (forall l, sum_of l (f_sum l)) /\ permutes srt /\ tset_ok label_set /\ (Z.of_nat (ts_n label_set + ts_dim label_set) <= 2 ^ 20)%Z /\
  exists t, perp_fit (feat_f f0 srt) (cl64_lik f_sum log_cr gammaln_cr betaln_cr pow_cr f_half f_zero) same false 0 (Some [f_nat 1; f_nat 1]) label_set = Ok t /\
    splits t <> [] /\ scores_finite t.
Proof.
  intros Hs. split; [exact f_sum_sum|]. split; [intros key m; apply Hs|]. split; [apply label_ok|]. split; [vm_compute; discriminate|]. exact (two_finite64 srt same Hs).
Qed.
(** With [C83_example] and [C86_example]: the remaining hypotheses of the comparison with the exact trees. *)
Example C87_exact_example :
  (exists te, clf_fit (argsort_by Rleb) half_h two_exact = Ok te /\
    every_node two_exact te (clear_node (B2R f_half) 0 (clf_ev (map B2R [f_nat 1; f_nat 1])) two_tau 3 two_exact) /\
    splits te <> [] /\ scores_below te /\ two_tau <= b2 898) /\
  exists te, reg_fit (argsort_by Rleb) pm_h pm_exact = Ok te /\
    every_node pm_exact te (clear_node (B2R f_half) 0 (ng_logev (ng_val pm_prior)) pm_tau 3 pm_exact) /\
    splits te <> [] /\ scores_below te /\ pm_tau <= b2 898.
Proof. split; [exact two_scores|exact pm_scores]. Qed.
