(** * Properties of the evidence in float64 arithmetic: C81 and C82. *)
From Coq Require Import Reals Lra Permutation Psatz String.
From Flocq Require Import Core BinarySingleNaN.
From Verif Require Import Prelude Lists Tree Perp RealOps Reg Api Spec ApiSpec RegSpec OptProofs Routing Exec Witness FloatFeat FloatProofs NumApi NumWitness
  FloatReg FloatRegProofs FloatSum FloatNG FitPrior FloatNGFit FloatClf FloatClfSum FloatClfProofs FloatClfFit FloatWitness.
Local Open Scope R_scope.

(** ** C81: the logarithms of float64 regression *)
(** Far from 0 the computed [beta] of a node can be negative, whatever the logarithm of a negative number is nan: the float64 fit is
    a single leaf.  In exact arithmetic the same numbers give a tree with a split. *)
Theorem C81_beta_refuted : exists (prior : fng) (ys : list float64),
  B2R (fn_beta prior) = 1 /\ Forall (fun a => is_finite a = true) ys /\ (0 < List.length ys < 8)%nat /\
  Bltb (fn_beta (freg_posterior f_sum f_one prior ys)) f_zero = true.
Proof. exact far_beta. Qed.
Print Assumptions C81_beta_refuted.
Theorem C81_fit_refuted : exists (prior : fng) (d : tset float64 float64) (priorR : ng) (dR : tset R R),
  (priorR = mkNG (B2R (fn_mu prior)) (B2R (fn_kappa prior)) (B2R (fn_alpha prior)) (B2R (fn_beta prior)) /\
   ts_n dR = ts_n d /\ ts_dim dR = ts_dim d /\ ts_names dR = ts_names d /\
   (forall i f, is_finite (ts_X d i f) = true /\ ts_X dR i f = B2R (ts_X d i f)) /\ (forall i, is_finite (ts_y d i) = true /\ ts_y dR i = B2R (ts_y d i))) /\
  (forall fsum flog fgammaln fpow f2pi pp delta srt same prn, permutes srt -> (forall l, (List.length l < 8)%nat -> fsum l = f_sum l) ->
    (forall x, Bltb x f_zero = true -> is_nan (flog x) = true) ->
    exists i, perp_fit (feat_f f_zero srt) (freg_lik fsum flog fgammaln fpow f2pi pp delta) same prn 0 (Some prior) d = Ok (Leaf i)) /\
  (forall prn, let h := mkHyper (9 / 10) (Some priorR) 0 prn 0 in reg_setting sort_R priorR h dR /\
    exists t, reg_fit sort_R h dR = Ok t /\ height t = 1%nat /\ List.length (leaves t) = 2%nat).
Proof. exact far_refuted. Qed.
Print Assumptions C81_fit_refuted.

(** Integer targets whose squares add up to less than 2^53 are safe: every node has a finite positive [beta], for every
    order of additions in [np.sum]. *)
Theorem C81_positive fsum flog fgammaln fpow f2pi pp delta A V (F : feat A V) same (d : tset A float64) z prior pa do_prune lvl t :
  (forall l, sum_of l (fsum l)) -> Beqb delta f_zero = true -> int_targets d z -> (square_sum d z < 2 ^ 53)%Z ->
  freg_get_prior pa (ts_n d) (ts_dim d) = prior -> prior_range prior (square_sum d z) -> (Z.of_nat (ts_n d * ts_dim d) < 2 ^ 53)%Z ->
  permutes (f_argsort F) -> tset_ok d ->
  perp_fit F (freg_lik fsum flog fgammaln fpow f2pi pp delta) same do_prune lvl pa d = Ok t ->
  all_nodes (fun u => is_finite (fn_beta (i_post (info u))) = true /\ 0 < B2R (fn_beta (i_post (info u)))) t.
Proof. intros. eapply int_positive; eauto. Qed.
Print Assumptions C81_positive.
(** Nor does any score take the logarithm of a negative number or of nan: the tree is the same for any two logarithms that
    agree on the finite nonnegative numbers. *)
Theorem C81_logs fsum flog flog' fgammaln fpow f2pi pp delta A V (F : feat A V) same (d : tset A float64) z prior pa do_prune lvl t :
  (forall l, sum_of l (fsum l)) -> (forall x, is_finite x = true -> 0 <= B2R x -> flog' x = flog x) ->
  (forall k, (1 <= k)%nat -> is_finite (fpow pp k) = true /\ 0 <= B2R (fpow pp k) <= 1) -> (is_finite f2pi = true /\ 0 <= B2R f2pi) ->
  Beqb delta f_zero = true -> int_targets d z -> (square_sum d z < 2 ^ 53)%Z ->
  freg_get_prior pa (ts_n d) (ts_dim d) = prior -> prior_range prior (square_sum d z) -> (Z.of_nat (ts_n d * ts_dim d) < 2 ^ 53)%Z ->
  permutes (f_argsort F) -> tset_ok d ->
  perp_fit F (freg_lik fsum flog fgammaln fpow f2pi pp delta) same do_prune lvl pa d = Ok t ->
  perp_fit F (freg_lik fsum flog' fgammaln fpow f2pi pp delta) same do_prune lvl pa d = Ok t.
Proof. intros. eapply int_logs; eauto. Qed.
Print Assumptions C81_logs.
(** The default prior is in range for squares adding up to less than 2^51. *)
Theorem C81_default n n_dim T : (Z.of_nat n < 2 ^ 53)%Z -> (0 <= T < 2 ^ 51)%Z -> prior_range (freg_get_prior None n n_dim) T.
Proof. exact (default_range n n_dim T). Qed.
Print Assumptions C81_default.

Example C81_ex : int_targets four_set four_z /\ square_sum four_set four_z = 18%Z /\ tset_ok four_set /\
  (forall l, sum_of l (f_sum l)) /\ prior_range (freg_get_prior None 4 1) 18 /\
  (forall k, (1 <= k)%nat -> is_finite (half_pow f_half k) = true /\ 0 <= B2R (half_pow f_half k) <= 1).
Proof. exact four_ok. Qed.

(** ** C82: probabilities and predictions of float64 classification *)
(** The scores ([flog], [fgammaln], [fbetaln], [fpow]) are arbitrary: they decide the shape of the tree only. *)
Theorem C82_probabilities fsum flog fgammaln fbetaln fpow pp delta A V (F : feat A V) same (d : tset A float64) lab k prior pa do_prune lvl t :
  (forall l, sum_of l (fsum l)) -> Beqb delta f_zero = true -> (0 < k)%nat /\ (Z.of_nat k <= 2 ^ 20)%Z ->
  cl64_get_prior pa (ts_n d) (ts_dim d) = prior -> List.length prior = k -> Forall (fun a => nonneg_fin a /\ B2R a <= bpow radix2 900) prior ->
  (Z.of_nat (ts_n d) < 2 ^ 53)%Z -> (forall i, (i < ts_n d)%nat -> ts_y d i = f_nat (lab i) /\ (lab i < k)%nat) ->
  tset_ok d -> permutes (f_argsort F) ->
  perp_fit F (cl64_lik fsum flog fgammaln fbetaln fpow pp delta) same do_prune lvl pa d = Ok t ->
  all_nodes (fun u => exists rows, NoDup rows /\ rows <> [] /\ (forall i, In i rows -> (i < ts_n d)%nat) /\
    i_n_data (info u) = List.length rows /\ node_probabilities fsum lab k prior rows u) t.
Proof. intros. eapply cl64_any; eauto. Qed.
Print Assumptions C82_probabilities.
(** With float64 features (finite, cuts strictly between neighbours) these are the rows that the prediction sends to the node. *)
Theorem C82_routed fsum flog fgammaln fbetaln fpow pp delta p srt same (d : tset float64 float64) lab k prior pa do_prune lvl t :
  (forall l, sum_of l (fsum l)) -> Beqb delta f_zero = true -> (0 < k)%nat /\ (Z.of_nat k <= 2 ^ 20)%Z ->
  cl64_get_prior pa (ts_n d) (ts_dim d) = prior -> List.length prior = k -> Forall (fun a => nonneg_fin a /\ B2R a <= bpow radix2 900) prior ->
  (Z.of_nat (ts_n d) < 2 ^ 53)%Z -> (forall i, (i < ts_n d)%nat -> ts_y d i = f_nat (lab i) /\ (lab i < k)%nat) ->
  Bltb p f0 = false -> sorts fleb srt -> tset_ok d -> finite_entries 53 1024 (ts_X d) (ts_n d) (ts_dim d) ->
  separable 53 1024 prec64_pos prec64_lt p (ts_X d) (ts_n d) (ts_dim d) ->
  perp_fit (feat_f p srt) (cl64_lik fsum flog fgammaln fbetaln fpow pp delta) same do_prune lvl pa d = Ok t ->
  nodes_ok (f_left (ts_X d)) (f_right (ts_X d)) (fun rows u => i_n_data (info u) = List.length rows /\ node_probabilities fsum lab k prior rows u)
    (seq 0 (ts_n d)) t.
Proof. exact (float_probabilities fsum flog fgammaln fbetaln fpow pp delta p srt same d lab k prior pa do_prune lvl t). Qed.
Print Assumptions C82_routed.
(** With a symmetric prior every node predicts the first most frequent class of its rows: no float64 rounding ever changes
    the majority. *)
Theorem C82_majority fsum flog fgammaln fbetaln fpow pp delta p srt same (d : tset float64 float64) lab k w pa do_prune lvl t :
  Beqb delta f_zero = true -> (0 < k)%nat /\ (Z.of_nat k <= 2 ^ 20)%Z ->
  cl64_get_prior pa (ts_n d) (ts_dim d) = repeat w k -> is_finite w = true -> 0 <= B2R w <= bpow radix2 50 ->
  (Z.of_nat (ts_n d) <= 2 ^ 50)%Z -> (forall i, (i < ts_n d)%nat -> ts_y d i = f_nat (lab i) /\ (lab i < k)%nat) ->
  Bltb p f0 = false -> sorts fleb srt -> tset_ok d -> finite_entries 53 1024 (ts_X d) (ts_n d) (ts_dim d) ->
  separable 53 1024 prec64_pos prec64_lt p (ts_X d) (ts_n d) (ts_dim d) ->
  perp_fit (feat_f p srt) (cl64_lik fsum flog fgammaln fbetaln fpow pp delta) same do_prune lvl pa d = Ok t ->
  nodes_ok (f_left (ts_X d)) (f_right (ts_X d)) (node_majority lab k) (seq 0 (ts_n d)) t.
Proof. exact (float_majority fsum flog fgammaln fbetaln fpow pp delta p srt same d lab k w pa do_prune lvl t). Qed.
Print Assumptions C82_majority.
(** The predicted class need not be the first class of the largest probability: different posteriors can have equal computed means. *)
Theorem C82_argmax_refuted : exists (prior : list float64) (d : tset float64 float64) (post : list float64),
  Forall (fun a => is_finite a = true /\ 1 <= B2R a) prior /\ tset_ok d /\
  (forall i, (i < ts_n d)%nat -> ts_y d i = f_nat i) /\
  (forall fsum flog fgammaln fbetaln fpow pp delta srt same prn, permutes srt ->
    exists i, perp_fit (feat_f f_zero srt) (cl64_lik fsum flog fgammaln fbetaln fpow pp delta) same prn 0 (Some prior) d = Ok (Leaf i) /\ i_post i = post) /\
  cl64_predict_leaf post = 1%nat /\ f_argmax (cl64_mean f_sum post) = 0%nat /\
  Bltb (nth 0 post f_zero) (nth 1 post f_zero) = true /\ Beqb (nth 0 (cl64_mean f_sum post) f_zero) (nth 1 (cl64_mean f_sum post) f_zero) = true.
Proof. exact tie_refuted. Qed.
Print Assumptions C82_argmax_refuted.

(** The entries of the computed default prior are exact. *)
Theorem C82_default n n_dim : (Z.of_nat n < 2 ^ 53)%Z -> map B2R (cl64_get_prior None n n_dim) = repeat (INR (Nat.max 1 (n / 100))) n_dim /\
  Forall (fun a => is_finite a = true) (cl64_get_prior None n n_dim).
Proof. exact (cl64_default n n_dim). Qed.
Print Assumptions C82_default.

Example C82_ex : tset_ok label_set /\ finite_entries 53 1024 (ts_X label_set) 2 1 /\
  separable 53 1024 prec64_pos prec64_lt f_zero (ts_X label_set) 2 1 /\
  (forall i, (i < ts_n label_set)%nat -> ts_y label_set i = f_nat i /\ (i < 2)%nat) /\
  cl64_get_prior None 2 2 = repeat f_one 2 /\ Forall (fun a => nonneg_fin a /\ B2R a <= bpow radix2 900) (repeat f_one 2) /\ Bltb f_zero f0 = false.
Proof. exact label_ok. Qed.
