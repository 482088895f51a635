(** * Properties of perpendicular trees.

    Each theorem is the formal statement of the property with the same number in properties.jsonl.
    The vocabulary is that of Spec.v, OptSpec.v, ClfSpec.v, RegSpec.v and ApiSpec.v; the model entry points
    are those of Api.v. *)
From Coq Require Import QArith Permutation Sorted.
From Verif Require Import Prelude Tree Perp Gamma RealOps Clf Reg Api Spec OptProofs ClfSpec RegSpec ApiSpec.
From Verif Require Import Lists FitProofs OptFit ClfProofs RegProofs ApiProofs NodeFacts SplitFacts PruneProofs Equiv Exec Witness
  RegWitness PropLemmas PropCases RawLeaf.
Local Open Scope nat_scope.

(** ** C01: fit terminates and succeeds *)
(** Any arithmetic [F] and any likelihood [L]. *)
Theorem C01_fit_total {A V Y P S} (F : feat A V) (L : lik Y P S) same prn lvl pa (d : tset A Y) :
  permutes (f_argsort F) -> tset_ok d -> exists t, perp_fit F L same prn lvl pa d = Ok t.
Proof. exact (fit_total F L same prn lvl pa d). Qed.
Print Assumptions C01_fit_total.
(** The fuel of [pfit] is the number of nested [_fit] calls: n - 1 suffice (1 for a single sample). *)
Theorem C01_fit_depth {A V Y P S} (F : feat A V) (L : lik Y P S) lvl pa (d : tset A Y) :
  permutes (f_argsort F) -> tset_ok d ->
  exists t, pfit_root F L (ts_X d) (ts_y d) (ts_names d) lvl pa (ts_n d) (ts_dim d) = Ok t /\
    pfit F L (ts_X d) (ts_y d) (ts_names d) (Nat.max 1 (ts_n d - 1)) lvl pa (root_indices F (ts_X d) (ts_n d) (ts_dim d)) = Ok t.
Proof. exact (fit_depth F L lvl pa d). Qed.
Print Assumptions C01_fit_depth.
(** The array reads of the scan over a dimension are in range for both kinds of trees. *)
Theorem C01_scan_reads pp delta (X : nat -> nat -> R) y lvl n_dim dim row prec srt :
  let ks := split_positions (f_gap (feat_R prec srt)) (gather (fun i => X i dim) row) in
  ks <> [] ->
  (forall prior, let log_p := l_split (clf_lik pp delta) lvl prior n_dim (gather y row) ks in
     exists s k, nth_error log_p (argmax Rgtb log_p) = Some s /\ nth_error ks (argmax Rgtb log_p) = Some k /\ 1 <= k < length row) /\
  (forall prior, let log_p := l_split (reg_lik pp delta) lvl prior n_dim (gather y row) ks in
     exists s k, nth_error log_p (argmax Rgtb log_p) = Some s /\ nth_error ks (argmax Rgtb log_p) = Some k /\ 1 <= k < length row).
Proof. exact (scan_reads_both pp delta X y lvl n_dim dim row prec srt). Qed.
Print Assumptions C01_scan_reads.
Example C01_case : permutes (f_argsort (feat_R 0 sort_R)) /\ tset_ok (real_set ex1) /\ ts_n (real_set ex1) = 9.
Proof. exact ex1_generic. Qed.

(** ** C02: training rows are routed to the leaf fitted on them *)
Theorem C02_clf_routing srt k prior h d t : clf_setting srt k prior h d -> clf_fit srt h d = Ok t ->
  node_data (add_counts 1) (add_counts (h_delta h)) d (Some prior) prior (all_rows d) t.
Proof. exact (clf_node_data srt k prior h d t). Qed.
Print Assumptions C02_clf_routing.
Theorem C02_reg_routing srt prior h d t : reg_setting srt prior h d -> reg_fit srt h d = Ok t ->
  node_data (ng_update 1) (ng_update (h_delta h)) d (h_prior h) prior (all_rows d) t.
Proof. exact (reg_node_data srt prior h d t). Qed.
Print Assumptions C02_reg_routing.
(** The usual case delta = 0: every node was fitted on exactly the rows that predict sends through it. *)
Theorem C02_clf_nodes srt k prior h d t : clf_setting srt k prior h d -> h_delta h = 0%R -> clf_fit srt h d = Ok t ->
  every_node d t (fun rows n => rows <> [] /\ i_n_data (info n) = length rows /\
                               i_post (info n) = add_counts 1 prior (targets d rows)).
Proof. exact (clf_nodes0 srt k prior h d t). Qed.
Print Assumptions C02_clf_nodes.
Theorem C02_reg_nodes srt prior h d t : reg_setting srt prior h d -> h_delta h = 0%R -> reg_fit srt h d = Ok t ->
  every_node d t (fun rows n => rows <> [] /\ i_n_data (info n) = length rows /\
                               i_post (info n) = ng_update 1 prior (targets d rows)).
Proof. exact (reg_nodes0 srt prior h d t). Qed.
Print Assumptions C02_reg_nodes.
(** Beside C02-C05, C09-C11, C14, C18-C20, C22: a valid problem whose tree has depth 2 and 3 leaves. *)
Example C02_case_clf prn : clf_setting sort_R 3 (map IZR [1; 1; 1]%Z) (ex1_h prn) (real_set ex1) /\ h_delta (ex1_h prn) = 0%R /\
  exists t, clf_fit sort_R (ex1_h prn) (real_set ex1) = Ok t /\ height t = 2 /\ length (leaves t) = 3.
Proof. exact (ex1_full prn). Qed.
(** One with delta = 1 and a tree of depth 1. *)
Example C02_case_delta prn : clf_setting sort_R 2 (map IZR [1; 1]%Z) (ex_delta_h prn) (real_set ex_delta) /\ h_delta (ex_delta_h prn) = 1%R /\
  exists t, clf_fit sort_R (ex_delta_h prn) (real_set ex_delta) = Ok t /\ height t = 1 /\ length (leaves t) = 2.
Proof. exact (ex_delta_full prn). Qed.
(** A regression problem (also for C06, C08-C11, C51). *)
Example C02_case_reg prn : reg_setting sort_R p1 (half_h prn) step_set /\ h_delta (half_h prn) = 0%R /\ h_prior (half_h prn) = Some p1 /\
  exists t, reg_fit sort_R (half_h prn) step_set = Ok t /\ height t = 1 /\ length (leaves t) = 2.
Proof. exact (step_full prn). Qed.

(** ** C03: predict_proba *)
Theorem C03_proba_frequency srt k prior h d t Xq m q c :
  clf_setting srt k prior h d -> h_delta h = 0%R -> clf_fit srt h d = Ok t -> q < m -> c < k ->
  let mates := leaf_mates d t Xq q in
  exists p, nth_error (clf_predict_proba t Xq m) q = Some (Some p) /\ length p = k /\
    nth c p 0%R = ((nth c prior 0 + INR (count_label c (targets d mates))) / (vsum prior + INR (length mates)))%R.
Proof. exact (proba_frequency srt k prior h d t Xq m q c). Qed.
Print Assumptions C03_proba_frequency.

(** ** C04 *)
Theorem C04_proba_distribution srt k prior h d t Xq m q : clf_setting srt k prior h d -> clf_fit srt h d = Ok t -> q < m ->
  exists p, nth_error (clf_predict_proba t Xq m) q = Some (Some p) /\ length p = k /\
    Forall (fun x => (0 < x)%R) p /\ vsum p = 1%R.
Proof. exact (proba_dist srt k prior h d t Xq m q). Qed.
Print Assumptions C04_proba_distribution.

(** ** C05 *)
Theorem C05_predict_first_max srt k prior h d t Xq m q : clf_setting srt k prior h d -> clf_fit srt h d = Ok t -> q < m ->
  exists p c, nth_error (clf_predict_proba t Xq m) q = Some (Some p) /\ nth_error (clf_predict t Xq m) q = Some (INR c) /\
    c < length p /\ (forall j, j < length p -> (nth j p 0 <= nth c p 0)%R) /\ (forall j, j < c -> (nth j p 0 < nth c p 0)%R).
Proof. exact (predict_first_max srt k prior h d t Xq m q). Qed.
Print Assumptions C05_predict_first_max.

(** ** C06 *)
Theorem C06_reg_mean srt prior h d t Xq m q :
  reg_setting srt prior h d -> h_delta h = 0%R -> reg_fit srt h d = Ok t -> q < m ->
  let mates := leaf_mates d t Xq q in
  nth_error (reg_predict t Xq m) q =
    Some ((ng_kappa prior * ng_mu prior + vsum (targets d mates)) / (ng_kappa prior + INR (length mates)))%R.
Proof. exact (reg_predict_mean srt prior h d t Xq m q). Qed.
Print Assumptions C06_reg_mean.

(** ** C07 *)
Theorem C07_conjugate p ys zs : (0 < ng_kappa p)%R -> (0 < ng_alpha p)%R -> (0 < ng_beta p)%R -> ys <> [] -> zs <> [] ->
  let q := reg_posterior 1 p ys in
  (0 < ng_kappa q)%R /\ (0 < ng_alpha q)%R /\ (0 < ng_beta q)%R /\
  (forall ys', Permutation ys ys' -> reg_posterior 1 p ys' = q) /\
  reg_posterior 1 p (ys ++ zs) = reg_posterior 1 q zs /\ q = ng_update 1 p ys.
Proof. exact (reg_conjugate p ys zs). Qed.
Print Assumptions C07_conjugate.
Example C07_case : (0 < ng_kappa p1)%R /\ (0 < ng_alpha p1)%R /\ (0 < ng_beta p1)%R /\ ng_mu (ng_update 1 p1 [3; 3]%R) = 2%R.
Proof. exact conj_case. Qed.

(** ** C08 *)
Theorem C08_reg_hull srt prior h d t Xq m q lo hi :
  reg_setting srt prior h d -> reg_fit srt h d = Ok t -> q < m ->
  (lo <= ng_mu prior <= hi)%R -> (forall i, i < ts_n d -> (lo <= ts_y d i <= hi)%R) ->
  exists v, nth_error (reg_predict t Xq m) q = Some v /\ (lo <= v <= hi)%R.
Proof. exact (reg_predict_hull srt prior h d t Xq m q lo hi). Qed.
Print Assumptions C08_reg_hull.
Example C08_case : (0 <= ng_mu p1 <= 3)%R /\ forall i, i < ts_n step_set -> (0 <= ts_y step_set i <= 3)%R.
Proof. exact hull_case. Qed.

(** ** C09 *)
Theorem C09_clf_best_split srt k prior h d t : clf_setting srt k prior h d -> clf_fit srt h d = Ok t ->
  every_node d t (best_split_node (h_pp h) (h_prec h) clf_ev (clf_dflt (ts_dim d)) d).
Proof. exact (clf_best_splits srt k prior h d t). Qed.
Print Assumptions C09_clf_best_split.
Theorem C09_reg_best_split srt prior h d t : reg_setting srt prior h d -> reg_fit srt h d = Ok t ->
  every_node d t (best_split_node (h_pp h) (h_prec h) ng_logev default_ng d).
Proof. exact (reg_best_splits srt prior h d t). Qed.
Print Assumptions C09_reg_best_split.

(** ** C10 *)
Theorem C10_clf_leaves srt k prior h d t : clf_setting srt k prior h d -> h_prune h = false -> clf_fit srt h d = Ok t ->
  every_node d t (justified_leaf (h_pp h) (h_prec h) clf_ev (clf_dflt (ts_dim d)) d).
Proof. exact (clf_leaves_justified srt k prior h d t). Qed.
Print Assumptions C10_clf_leaves.
Theorem C10_reg_leaves srt prior h d t : reg_setting srt prior h d -> h_prune h = false -> reg_fit srt h d = Ok t ->
  every_node d t (justified_leaf (h_pp h) (h_prec h) ng_logev default_ng d).
Proof. exact (reg_leaves_justified srt prior h d t). Qed.
Print Assumptions C10_reg_leaves.

(** ** C11 *)
Theorem C11_structure {A V Y P S} (F : feat A V) (L : lik Y P S) same prn lvl pa (d : tset A Y) t :
  permutes (f_argsort F) -> tset_ok d -> perp_fit F L same prn lvl pa d = Ok t ->
  i_n_data (info t) = ts_n d /\ counts_ok t /\ levels_ok lvl t /\
  get_n_leaves t = length (leaves t) /\ 1 <= length (leaves t) <= ts_n d /\
  get_depth t = lvl + height t /\ height t < ts_n d.
Proof. exact (fit_structure F L same prn lvl pa d t). Qed.
Print Assumptions C11_structure.

(** ** C14 *)
Theorem C14_prune {D S P} (same : ninfo P -> ninfo P -> bool) (t : tree D S P) :
  exists t', prune same t = Ok t' /\ t' = prune_bu same t /\ irreducible same t' /\ prune same t' = Ok t' /\
    pruned_of t t' /\ length (leaves t') <= length (leaves t) /\ height t' <= height t.
Proof. exact (prune_facts same t). Qed.
Print Assumptions C14_prune.
Theorem C14_fit_pruned {A V Y P S} (F : feat A V) (L : lik Y P S) same lvl pa (d : tset A Y) t t' :
  perp_fit F L same false lvl pa d = Ok t -> perp_fit F L same true lvl pa d = Ok t' ->
  t' = prune_bu same t /\ irreducible same t'.
Proof. exact (fit_pruned F L same lvl pa d t t'). Qed.
Print Assumptions C14_fit_pruned.

(** ** C15 *)
Theorem C15_prune_symmetric srt k prior h d t t' w Xq m : clf_setting srt k prior h d -> h_delta h = 0%R ->
  (forall c, c < k -> nth c prior 0%R = w) ->
  clf_fit srt (mkHyper (h_pp h) (h_prior h) (h_delta h) false (h_prec h)) d = Ok t ->
  clf_fit srt (mkHyper (h_pp h) (h_prior h) (h_delta h) true (h_prec h)) d = Ok t' ->
  clf_predict t' Xq m = clf_predict t Xq m.
Proof. exact (clf_prune_same srt k prior h d t t' w Xq m). Qed.
Print Assumptions C15_prune_symmetric.
Example C15_case : clf_setting sort_R 2 (map IZR [1; 1]%Z) (hyp (9 # 10) [1; 1]%Z 0 true 0) (real_set ex_swap) /\
  (forall c, c < 2 -> nth c (map IZR [1; 1]%Z) 0%R = 1%R) /\
  exists t t', clf_fit sort_R (hyp (9 # 10) [1; 1]%Z 0 false 0) (real_set ex_swap) = Ok t /\
    clf_fit sort_R (hyp (9 # 10) [1; 1]%Z 0 true 0) (real_set ex_swap) = Ok t' /\ length (leaves t) = 2 /\ length (leaves t') = 1.
Proof. exact swap_case. Qed.

(** ** C16: false of the code *)
Theorem C16_prune_changes_refuted : exists srt k prior h d t t' Xq,
  clf_setting srt k prior h d /\ h_delta h = 0%R /\
  clf_fit srt (mkHyper (h_pp h) (h_prior h) (h_delta h) false (h_prec h)) d = Ok t /\
  clf_fit srt (mkHyper (h_pp h) (h_prior h) (h_delta h) true (h_prec h)) d = Ok t' /\
  clf_predict t Xq 1 = [0%R] /\ clf_predict t' Xq 1 = [1%R].
Proof. exact prune_changes. Qed.
Print Assumptions C16_prune_changes_refuted.

(** ** C17: false of the code *)
Theorem C17_reg_prune_changes_refuted : exists srt prior h d t t' Xq,
  reg_setting srt prior h d /\ h_delta h = 0%R /\
  reg_fit srt (mkHyper (h_pp h) (h_prior h) (h_delta h) false (h_prec h)) d = Ok t /\
  reg_fit srt (mkHyper (h_pp h) (h_prior h) (h_delta h) true (h_prec h)) d = Ok t' /\
  reg_predict t Xq 1 = [2%R] /\ reg_predict t' Xq 1 = [(12 / 5)%R].
Proof. exact reg_prune_changes. Qed.
Print Assumptions C17_reg_prune_changes_refuted.

(** ** C18 *)
Theorem C18_additive srt k prior h d t : clf_setting srt k prior h d -> h_delta h = 0%R -> clf_fit srt h d = Ok t ->
  all_nodes (additive_node k prior) t.
Proof. exact (clf_additive srt k prior h d t). Qed.
Print Assumptions C18_additive.

(** ** C19, C20: [srt] and [srt'] may order equal values differently; [sigma] permutes the rows *)
Theorem C19_C20_clf_reorder srt srt' k prior h d sigma t :
  clf_setting srt k prior h d -> sorts Rleb srt' -> reordering (ts_n d) sigma ->
  clf_fit srt h d = Ok t -> clf_fit srt' h (reorder sigma d) = Ok t.
Proof. exact (clf_fit_reorder srt srt' k prior h d sigma t). Qed.
Print Assumptions C19_C20_clf_reorder.
Theorem C19_C20_reg_reorder srt srt' prior h d sigma t :
  reg_setting srt prior h d -> sorts Rleb srt' -> reordering (ts_n d) sigma ->
  reg_fit srt h d = Ok t -> reg_fit srt' h (reorder sigma d) = Ok t.
Proof. exact (reg_fit_reorder srt srt' prior h d sigma t). Qed.
Print Assumptions C19_C20_reg_reorder.
Example C20_case : reordering (ts_n (real_set ex1)) (fun i => 8 - i).
Proof. exact reverse_case. Qed.

(** ** C21 *)
Theorem C21_clf_scale srt srt' k prior h d u v t Xq m :
  clf_setting srt k prior h d -> sorts Rleb srt' -> h_prec h = 0%R -> (forall f, 0 < u f)%R ->
  clf_fit srt h d = Ok t ->
  clf_fit srt' h (scale_features u v d) = Ok (scale_thresholds u v t) /\
  clf_predict (scale_thresholds u v t) (scale_X u v Xq) m = clf_predict t Xq m /\
  clf_predict_proba (scale_thresholds u v t) (scale_X u v Xq) m = clf_predict_proba t Xq m.
Proof. exact (clf_scale_all srt srt' k prior h d u v t Xq m). Qed.
Print Assumptions C21_clf_scale.
Theorem C21_reg_scale srt srt' prior h d u v t Xq m :
  reg_setting srt prior h d -> sorts Rleb srt' -> h_prec h = 0%R -> (forall f, 0 < u f)%R ->
  reg_fit srt h d = Ok t ->
  reg_fit srt' h (scale_features u v d) = Ok (scale_thresholds u v t) /\
  reg_predict (scale_thresholds u v t) (scale_X u v Xq) m = reg_predict t Xq m.
Proof. exact (reg_scale_all srt srt' prior h d u v t Xq m). Qed.
Print Assumptions C21_reg_scale.
(** [C02_case_clf] and [C02_case_reg] with different scales for the features. *)
Example C21_case prn : clf_setting sort_R 3 (map IZR [1; 1; 1]%Z) (ex1_h prn) (real_set ex1) /\ h_prec (ex1_h prn) = 0%R /\
  reg_setting sort_R p1 (half_h prn) step_set /\ h_prec (half_h prn) = 0%R /\ forall f, (0 < INR (S f))%R.
Proof. exact (scale_case prn). Qed.

(** ** C22 *)
Theorem C22_rowwise t Xq m :
  rowwise (fun i => INR (clf_predict_leaf (i_post i))) t Xq m (clf_predict t Xq m) /\
  rowwise (fun i => Some (clf_posterior_mean (i_post i))) t Xq m (clf_predict_proba t Xq m) /\
  rowwise (fun i => Some (i_prior i, i_post i)) t Xq m (raw_leaf_data t Xq m).
Proof. exact (clf_rowwise t Xq m). Qed.
Print Assumptions C22_rowwise.
Theorem C22_rowwise_reg t Xq m :
  rowwise (fun i => reg_predict_leaf (i_post i)) t Xq m (reg_predict t Xq m) /\
  rowwise (fun i => Some (i_prior i, i_post i)) t Xq m (raw_leaf_data t Xq m).
Proof. exact (reg_rowwise t Xq m). Qed.
Print Assumptions C22_rowwise_reg.

(** ** C44 *)
Theorem C44_clf_evidence k prior ys : clf_pok k prior -> Forall (clf_yok k) ys ->
  (multivariate_betaln (clf_posterior 1 prior ys) - multivariate_betaln prior)%R = ln (dm_prob prior ys) /\
  (0 < dm_prob prior ys <= 1)%R /\ (forall ys', Permutation ys ys' -> dm_prob prior ys' = dm_prob prior ys).
Proof. exact (clf_evidence k prior ys). Qed.
Print Assumptions C44_clf_evidence.
Theorem C44_reg_evidence p ys : reg_pok p -> ys <> [] ->
  let q := reg_posterior 1 p ys in
  reg_log_p_data p (ng_alpha q) (ng_beta q) (ng_kappa q) (INR (length ys)) = seq_student p ys /\
  (forall zs, seq_student p (ys ++ zs) = seq_student p ys + seq_student q zs)%R /\
  (forall ys', Permutation ys ys' -> seq_student p ys' = seq_student p ys).
Proof. exact (reg_evidence p ys). Qed.
Print Assumptions C44_reg_evidence.
(** [gammaln] is the logarithm of the gamma function (Bohr-Mollerup). *)
Theorem C44_gammaln : gammaln 1 = 0%R /\ (forall x, (0 < x)%R -> gammaln (x + 1) = (gammaln x + ln x)%R) /\
  bm_convex gammaln /\
  forall f, (forall x, (0 < x)%R -> f (x + 1)%R = (f x + ln x)%R) -> bm_convex f -> f 1%R = 0%R ->
    forall x, (0 < x)%R -> f x = gammaln x.
Proof. exact gammaln_facts. Qed.
Print Assumptions C44_gammaln.
Example C44_case : clf_pok 3 [1; 2; 1]%R /\ Forall (clf_yok 3) [0; 1; 1; 2]%R /\ dm_prob [1; 2; 1]%R [0; 1; 1; 2]%R = (1 / 140)%R /\ reg_pok p1.
Proof. exact evidence_case. Qed.

(** ** C45 *)
Theorem C45_clf_split k pp lvl p n_dim ys ks : clf_pok k p -> Forall (clf_yok k) ys ->
  (forall j, In j ks -> 1 <= j < length ys) ->
  clf_split pp lvl p n_dim ys ks =
  map (fun j => ln (pp ^ (1 + lvl) / (INR (length ks) * INR n_dim)) + ln (dm_prob p (firstn j ys)) + ln (dm_prob p (skipn j ys)))%R ks.
Proof. exact (clf_split_eq k pp lvl p n_dim ys ks). Qed.
Print Assumptions C45_clf_split.
Theorem C45_reg_split pp lvl p n_dim ys ks : reg_pok p -> StronglySorted lt ks ->
  (forall k, In k ks -> 1 <= k < length ys) ->
  reg_split pp lvl p n_dim ys ks =
  map (fun k => ln (pp ^ (1 + lvl) / (INR (length ks) * INR n_dim)) + ng_logev p (firstn k ys) + ng_logev p (skipn k ys))%R ks.
Proof. exact (reg_split_eq pp lvl p n_dim ys ks). Qed.
Print Assumptions C45_reg_split.
Example C45_case : StronglySorted lt [1; 3] /\ (forall k, In k [1; 3] -> 1 <= k < length [0; 1; 1; 2]%R) /\
  (forall k, In k [1; 2; 3] -> 1 <= k < length [0; 1; 1; 2]%R).
Proof. exact positions_case. Qed.

(** ** C47: false of the code; the leaves it fails for are those below the root with one target value, if delta <> 0 *)
Theorem C47_raw_leaf_exact srt k prior h d t Xq m q : clf_setting srt k prior h d -> clf_fit srt h d = Ok t -> q < m ->
  let ys := targets d (leaf_mates d t Xq q) in
  exists pr po, nth_error (raw_leaf_data t Xq m) q = Some (Some (Some pr, po)) /\ length pr = k /\ length po = k /\
    (splits t = [] \/ many ys -> forall c, c < k -> (nth c po 0 - nth c pr 0)%R = INR (count_label c ys)) /\
    (splits t <> [] -> ~ many ys -> forall c, c < k -> (nth c po 0 - nth c pr 0)%R = ((1 - h_delta h) * INR (count_label c ys))%R).
Proof. exact (raw_leaf_exact srt k prior h d t Xq m q). Qed.
Print Assumptions C47_raw_leaf_exact.
Theorem C47_raw_leaf_delta0 srt k prior h d t Xq m q :
  clf_setting srt k prior h d -> h_delta h = 0%R -> clf_fit srt h d = Ok t -> q < m ->
  exists pr po, nth_error (raw_leaf_data t Xq m) q = Some (Some (Some pr, po)) /\ length pr = k /\ length po = k /\
    forall c, c < k -> (nth c po 0 - nth c pr 0)%R = INR (count_label c (targets d (leaf_mates d t Xq q))).
Proof. exact (raw_leaf_counts srt k prior h d t Xq m q). Qed.
Print Assumptions C47_raw_leaf_delta0.
Theorem C47_raw_leaf_refuted : exists srt k prior h d t Xq pr po,
  clf_setting srt k prior h d /\ clf_fit srt h d = Ok t /\
  raw_leaf_data t Xq 1 = [Some (Some pr, po)] /\
  count_label 0 (targets d (leaf_mates d t Xq 0)) = 2 /\ (nth 0 po 0 - nth 0 pr 0)%R = 0%R.
Proof. exact raw_leaf_delta. Qed.
Print Assumptions C47_raw_leaf_refuted.

(** ** C49 *)
Theorem C49_store_index n i : (N.of_nat n <= 2 ^ 64)%N -> i < n -> store_index n i = i.
Proof. exact (store_index_id n i). Qed.
Print Assumptions C49_store_index.
Example C49_case : (N.of_nat 3 <= 2 ^ 64)%N /\ index_bits 65535 = 16%N /\ index_bits 65536 = 32%N.
Proof. exact bits_case. Qed.

(** ** C50 *)
Theorem C50_relabel srt srt' k prior prior' h h' d pi t :
  clf_setting srt k prior h d -> sorts Rleb srt' -> class_perm k pi -> permuted k pi prior prior' -> h_prune h = false ->
  h' = mkHyper (h_pp h) (Some prior') (h_delta h) false (h_prec h) ->
  clf_fit srt h d = Ok t ->
  exists t', clf_fit srt' h' (map_target (relabel pi) d) = Ok t' /\ skeleton t' = skeleton t /\
    forall Xq m q p, nth_error (clf_predict_proba t Xq m) q = Some (Some p) ->
      exists p', nth_error (clf_predict_proba t' Xq m) q = Some (Some p') /\ permuted k pi p p'.
Proof. exact (clf_fit_relabel srt srt' k prior prior' h h' d pi t). Qed.
Print Assumptions C50_relabel.
Example C50_case : class_perm 3 (fun c => (c + 1) mod 3) /\
  permuted 3 (fun c => (c + 1) mod 3) (map IZR [1; 1; 1]%Z) (map IZR [1; 1; 1]%Z).
Proof. exact rotate_case. Qed.

(** ** C51 *)
Theorem C51_target_scale s c srt srt' prior h h' d t : (0 < s)%R ->
  reg_setting srt prior h d -> h_prior h = Some prior -> sorts Rleb srt' ->
  h' = mkHyper (h_pp h) (Some (scale_ng s c prior)) (h_delta h) (h_prune h) (h_prec h) ->
  reg_fit srt h d = Ok t ->
  exists t', reg_fit srt' h' (map_target (affine s c) d) = Ok t' /\ skeleton t' = skeleton t /\
    forall Xq m, reg_predict t' Xq m = map (affine s c) (reg_predict t Xq m).
Proof. exact (fun Hs => reg_fit_target_scale s c Hs srt srt' prior h h' d t). Qed.
Print Assumptions C51_target_scale.
Example C51_case prn : (0 < 10)%R /\ reg_setting sort_R p1 (half_h prn) step_set /\ h_prior (half_h prn) = Some p1 /\ sorts Rleb sort_R /\
  scale_ng 10 3 p1 = mkNG (affine 10 3 (ng_mu p1)) (ng_kappa p1) (ng_alpha p1) (100 * ng_beta p1).
Proof. exact (target_case prn). Qed.

(** ** C53: false of the code *)
Theorem C53_relabel_prune_refuted : exists srt k prior h d pi t t',
  clf_setting srt k prior h d /\ h_prune h = true /\ class_perm k pi /\ permuted k pi prior prior /\
  clf_fit srt h d = Ok t /\ clf_fit srt h (map_target (relabel pi) d) = Ok t' /\
  length (leaves t) = 1 /\ length (leaves t') = 2.
Proof. exact relabel_prune_changes. Qed.
Print Assumptions C53_relabel_prune_refuted.
