(** * Pruning in float64: C88. *)
From Coq Require Import Reals Lra Permutation String.
From Flocq Require Import Core BinarySingleNaN.
From Verif Require Import Prelude Lists Tree Perp RealOps Gamma Clf Reg Api Spec PredictProofs OptProofs Exec
  ApiSpec ApiProofs ClfSpec ClfProofs RegSpec RegProofs Importance ImportanceSpec FloatFeat FloatProofs NumApi FloatReg FloatSum FloatNG FloatClf FloatClfSum Witness NumWitness FloatWitness
  FloatClfErr FloatOracle StableFit StableEx FloatRegFit FloatRegEx FloatImp FloatImpSpec FloatImpProofs FloatImpFit.
From Verif Require Import StructProofs PropLemmas NumLemmas FloatClfProofs FloatClfFit FloatImpEx FloatPrune FloatPruneEx.
From Verif Require Import Prelude Lists Tree Perp RealOps Gamma Reg Api Spec PruneProofs PredictProofs FitProofs OptSpec OptProofs OptFit OptNodes Exec   ApiSpec ApiProofs ClfSpec ClfProofs RegSpec RegProofs SplitFacts NodeFacts Routing FloatFeat FloatProofs NumApi FloatReg FloatSum FloatNG Witness NumWitness FloatWitness   FloatClfSum FloatClfErr FloatOracle StableFit StableEx FloatRegErr FloatRegScore FloatRegFit.
Local Open Scope R_scope.

(** ** C88: what pruning does to trees fitted in float64 (base.py:147-165) *)
(** Two sibling leaves of a pruned regression tree never hold the same finite number. *)
Theorem C88_reg_apart {A V} (F : feat A V) fsum flog fgammaln fpow f2pi pp delta lvl pa (d : tset A float64) t t' :
  perp_fit F (freg_lik fsum flog fgammaln fpow f2pi pp delta) freg_same false lvl pa d = Ok t ->
  perp_fit F (freg_lik fsum flog fgammaln fpow f2pi pp delta) freg_same true lvl pa d = Ok t' ->
  siblings_differ number_differs t'.
Proof. intros E E'. exact (pruned_apart F _ freg_same lvl pa d t t' E E' number_differs freg_same_false). Qed.
Print Assumptions C88_reg_apart.
(** Where sibling leaves hold different finite numbers, pruning changes nothing. *)
Theorem C88_reg_kept {A V} (F : feat A V) fsum flog fgammaln fpow f2pi pp delta lvl pa (d : tset A float64) t t' :
  perp_fit F (freg_lik fsum flog fgammaln fpow f2pi pp delta) freg_same false lvl pa d = Ok t ->
  perp_fit F (freg_lik fsum flog fgammaln fpow f2pi pp delta) freg_same true lvl pa d = Ok t' ->
  siblings_differ numbers_differ t -> t' = t.
Proof. intros E E'. exact (apart_kept F _ freg_same lvl pa d t t' E E' numbers_differ freg_differ). Qed.
Print Assumptions C88_reg_kept.
(** Two sibling leaves of a pruned classification tree never answer the same class. *)
Theorem C88_clf_apart {A V} (F : feat A V) fsum flog fgammaln fbetaln fpow pp delta lvl pa (d : tset A float64) t t' :
  perp_fit F (cl64_lik fsum flog fgammaln fbetaln fpow pp delta) cl64_same false lvl pa d = Ok t ->
  perp_fit F (cl64_lik fsum flog fgammaln fbetaln fpow pp delta) cl64_same true lvl pa d = Ok t' ->
  siblings_differ class_differs t'.
Proof. intros E E'. exact (pruned_apart F _ cl64_same lvl pa d t t' E E' class_differs (fun i j => proj1 (cl64_same_false i j))). Qed.
Print Assumptions C88_clf_apart.
Theorem C88_clf_kept {A V} (F : feat A V) fsum flog fgammaln fbetaln fpow pp delta lvl pa (d : tset A float64) t t' :
  perp_fit F (cl64_lik fsum flog fgammaln fbetaln fpow pp delta) cl64_same false lvl pa d = Ok t ->
  perp_fit F (cl64_lik fsum flog fgammaln fbetaln fpow pp delta) cl64_same true lvl pa d = Ok t' ->
  siblings_differ class_differs t -> t' = t.
Proof. intros E E'. exact (apart_kept F _ cl64_same lvl pa d t t' E E' class_differs (fun i j => proj2 (cl64_same_false i j))). Qed.
Print Assumptions C88_clf_kept.
(** With a symmetric prior pruning does not change any predicted class, rounding of the posterior counts included. *)
Theorem C88_symmetric fsum flog fgammaln fbetaln fpow pp delta p srt (d : tset float64 float64) lab k w pa lvl t t' :
  Beqb delta f_zero = true -> (0 < k)%nat /\ (Z.of_nat k <= 2 ^ 20)%Z ->
  cl64_get_prior pa (ts_n d) (ts_dim d) = repeat w k -> is_finite w = true -> 0 <= B2R w <= bpow radix2 50 ->
  (Z.of_nat (ts_n d) <= 2 ^ 50)%Z -> (forall i, (i < ts_n d)%nat -> ts_y d i = f_nat (lab i) /\ (lab i < k)%nat) ->
  Bltb p f0 = false -> sorts fleb srt -> tset_ok d -> finite_entries 53 1024 (ts_X d) (ts_n d) (ts_dim d) ->
  separable 53 1024 prec64_pos prec64_lt p (ts_X d) (ts_n d) (ts_dim d) ->
  perp_fit (feat_f p srt) (cl64_lik fsum flog fgammaln fbetaln fpow pp delta) cl64_same false lvl pa d = Ok t ->
  perp_fit (feat_f p srt) (cl64_lik fsum flog fgammaln fbetaln fpow pp delta) cl64_same true lvl pa d = Ok t' ->
  forall Xq m, (forall q c, (q < m)%nat -> (c < ts_dim d)%nat -> is_nan (Xq q c) = false) -> cl64_predict t' Xq m = cl64_predict t Xq m.
Proof. exact (symmetric_prune fsum flog fgammaln fbetaln fpow pp delta p srt d lab k w pa lvl t t'). Qed.
Print Assumptions C88_symmetric.

(** ** Concrete cases that meet the hypotheses *)
(** Both fits have a split whose leaves differ; [C82_ex] has the hypotheses on the labels, the prior and the features. *)
Example C88_reg_example (srt : (nat -> float64) -> nat -> list nat) : sorts fleb srt -> exists t t',
  perp_fit (feat_f f0 srt) (freg_lik f_sum log_cr gammaln_cr pow_cr two_pi f_half f_zero) freg_same false 0 None pm_set = Ok t /\
  perp_fit (feat_f f0 srt) (freg_lik f_sum log_cr gammaln_cr pow_cr two_pi f_half f_zero) freg_same true 0 None pm_set = Ok t' /\
  splits t <> [] /\ siblings_differ numbers_differ t.
Proof. exact (pm_apart srt). Qed.
Example C88_clf_example (srt : (nat -> float64) -> nat -> list nat) : sorts fleb srt -> exists t t',
  perp_fit (feat_f f0 srt) (cl64_lik f_sum log_cr gammaln_cr betaln_cr pow_cr f_half f_zero) cl64_same false 0 (Some [f_nat 1; f_nat 1]) label_set = Ok t /\
  perp_fit (feat_f f0 srt) (cl64_lik f_sum log_cr gammaln_cr betaln_cr pow_cr f_half f_zero) cl64_same true 0 (Some [f_nat 1; f_nat 1]) label_set = Ok t' /\
  splits t <> [] /\ siblings_differ class_differs t.
Proof. exact (two_apart srt). Qed.
