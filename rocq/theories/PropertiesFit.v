(** * Properties relating fits and training data: C61-C64. *)
From Coq Require Import Reals.
From Verif Require Import Prelude Tree Perp RealOps Clf Reg Api Hyper Spec OptSpec ClfSpec RegSpec ApiSpec HyperSpec ImportanceSpec CoarseSpec TrainSpec.
From Verif Require Import Exec Witness RegWitness PropCases HyperLemmas HyperExec HyperWitness Coarse TrainProofs CoarseWitness.
Local Open Scope nat_scope.

(** ** C61 *)
Theorem C61_clf_coarser srt k prior h pp' d t t' : clf_setting srt k prior h d -> (0 < pp' <= h_pp h)%R ->
  clf_fit srt h d = Ok t -> clf_fit srt (mkHyper pp' (h_prior h) (h_delta h) (h_prune h) (h_prec h)) d = Ok t' -> coarser t' t.
Proof. exact (clf_pp_coarser srt k prior h pp' d t t'). Qed.
Print Assumptions C61_clf_coarser.
Theorem C61_reg_coarser srt prior h pp' d t t' : reg_setting srt prior h d -> (0 < pp' <= h_pp h)%R ->
  reg_fit srt h d = Ok t -> reg_fit srt (mkHyper pp' (h_prior h) (h_delta h) (h_prune h) (h_prec h)) d = Ok t' -> coarser t' t.
Proof. exact (reg_pp_coarser srt prior h pp' d t t'). Qed.
Print Assumptions C61_reg_coarser.
Theorem C61_hyper_coarser {C} (pre : C -> list R) srt cands h pp' d t t' : hs_dim d <> 0 -> (0 < pp' <= h_pp h)%R -> (h_pp h < 1)%R ->
  hclf_fit pre srt cands h d = Ok t -> hclf_fit pre srt cands (mkHyper pp' (h_prior h) (h_delta h) (h_prune h) (h_prec h)) d = Ok t' -> coarser t' t.
Proof. exact (hclf_pp_coarser pre srt cands h pp' d t t'). Qed.
Print Assumptions C61_hyper_coarser.
Theorem C61_hyper_coarser_reg {C} (pre : C -> list R) srt cands h pp' d t t' : hs_dim d <> 0 -> (0 < pp' <= h_pp h)%R -> (h_pp h < 1)%R ->
  hreg_fit pre srt cands h d = Ok t -> hreg_fit pre srt cands (mkHyper pp' (h_prior h) (h_delta h) (h_prune h) (h_prec h)) d = Ok t' -> coarser t' t.
Proof. exact (hreg_pp_coarser pre srt cands h pp' d t t'). Qed.
Print Assumptions C61_hyper_coarser_reg.
(** What coarser means for the size. *)
Theorem C61_size {D S P} (t' t : tree D S P) : coarser t' t ->
  length (leaves t') <= length (leaves t) /\ height t' <= height t /\
  incl (map (fun s => fst (fst s)) (splits t')) (map (fun s => fst (fst s)) (splits t)).
Proof. exact (coarser_size t' t). Qed.
Print Assumptions C61_size.
(** A problem where lowering the prior removes a split. *)
Example C61_case prn : clf_setting sort_R 3 (map IZR [1; 1; 1]%Z) (ex1_h prn) (real_set ex1) /\ (0 < 1 / 2 <= h_pp (ex1_h prn))%R /\
  exists t t', clf_fit sort_R (ex1_h prn) (real_set ex1) = Ok t /\
    clf_fit sort_R (mkHyper (1 / 2) (h_prior (ex1_h prn)) (h_delta (ex1_h prn)) (h_prune (ex1_h prn)) (h_prec (ex1_h prn))) (real_set ex1) = Ok t' /\
    length (leaves t) = 3 /\ length (leaves t') = 2.
Proof. exact (coarse_case prn). Qed.

(** ** C62 *)
Theorem C62_accuracy srt k prior w h d t : clf_setting srt k prior h d -> h_delta h = 0%R -> (forall c, c < k -> nth c prior 0%R = w) ->
  clf_fit srt h d = Ok t ->
  hits (ts_n d) (ts_y d) (clf_predict t (ts_X d) (ts_n d)) = list_sum (map (largest_class k) (leaf_targets d t)) /\
  forall c, c < k -> count_label c (targets d (all_rows d)) <= hits (ts_n d) (ts_y d) (clf_predict t (ts_X d) (ts_n d)).
Proof. exact (clf_hits srt k prior w h d t). Qed.
Print Assumptions C62_accuracy.
Theorem C62_hyper_accuracy {C} (pre : C -> list R) srt cands k prior w h d t : hclf_setting srt k prior h d -> (forall c, c < k -> nth c prior 0%R = w) ->
  hclf_fit pre srt cands h d = Ok t ->
  hits (hs_n d) (hs_y d) (hclf_predict t (hs_X d) (hs_n d)) = list_sum (map (largest_class k) (hleaf_targets d t)) /\
  forall c, c < k -> count_label c (htargets d (hrows d)) <= hits (hs_n d) (hs_y d) (hclf_predict t (hs_X d) (hs_n d)).
Proof. exact (hclf_hits pre srt cands k prior w h d t). Qed.
Print Assumptions C62_hyper_accuracy.
Theorem C62_accuracy_monotone srt k prior w h d pp' t t' : clf_setting srt k prior h d -> h_delta h = 0%R -> (forall c, c < k -> nth c prior 0%R = w) ->
  (0 < pp' <= h_pp h)%R -> clf_fit srt h d = Ok t ->
  clf_fit srt (mkHyper pp' (h_prior h) (h_delta h) (h_prune h) (h_prec h)) d = Ok t' ->
  hits (ts_n d) (ts_y d) (clf_predict t' (ts_X d) (ts_n d)) <= hits (ts_n d) (ts_y d) (clf_predict t (ts_X d) (ts_n d)).
Proof. exact (clf_hits_mono srt k prior w h d pp' t t'). Qed.
Print Assumptions C62_accuracy_monotone.
(** The symmetry of the prior is needed. *)
Theorem C62_asymmetric_refuted : exists srt k prior h d t c,
  clf_setting srt k prior h d /\ h_delta h = 0%R /\ clf_fit srt h d = Ok t /\ c < k /\
  hits (ts_n d) (ts_y d) (clf_predict t (ts_X d) (ts_n d)) < count_label c (targets d (all_rows d)).
Proof. exact skew_hits. Qed.
Print Assumptions C62_asymmetric_refuted.
(** Instances: [C61_case] here and [hyper_case] in PropertiesHyper.v (all priors are 1). *)
Example C62_case : (forall c, c < 3 -> nth c (map IZR [1; 1; 1]%Z) 0%R = 1%R) /\ largest_class 2 (map INR [1; 0; 1]) = 2.
Proof. exact largest_case. Qed.

(** ** C63 *)
Theorem C63_error srt prior h d t : reg_setting srt prior h d -> h_delta h = 0%R -> reg_fit srt h d = Ok t ->
  let e := sq_error (ts_n d) (ts_y d) (reg_predict t (ts_X d) (ts_n d)) in
  e = vsum (map (shrunk_error prior) (leaf_targets d t)) /\
  (e <= vsum (map (fun y => (ng_mu prior - y) ^ 2) (targets d (all_rows d))))%R.
Proof. exact (reg_error srt prior h d t). Qed.
Print Assumptions C63_error.
Theorem C63_hyper_error {C} (pre : C -> list R) srt cands prior h d t : hreg_setting srt prior h d -> hreg_fit pre srt cands h d = Ok t ->
  let e := sq_error (hs_n d) (hs_y d) (hreg_predict t (hs_X d) (hs_n d)) in
  e = vsum (map (shrunk_error prior) (hleaf_targets d t)) /\
  (e <= vsum (map (fun y => (ng_mu prior - y) ^ 2) (htargets d (hrows d))))%R.
Proof. exact (hreg_error pre srt cands prior h d t). Qed.
Print Assumptions C63_hyper_error.
Example C63_case prn : reg_setting sort_R p1 (half_h prn) step_set /\ h_delta (half_h prn) = 0%R /\ h_prior (half_h prn) = Some p1 /\
  exists t, reg_fit sort_R (half_h prn) step_set = Ok t /\ height t = 1 /\ length (leaves t) = 2.
Proof. exact (step_full prn). Qed.

(** ** C64 *)
Theorem C64_clf_total srt k prior h d t : clf_setting srt k prior h d -> h_delta h = 0%R -> clf_fit srt h d = Ok t ->
  exists x, log_odds (h_pp h) (h_prec h) d (all_rows d) t x /\
    total_gain t = (x + vsum (map (clf_ev prior) (leaf_targets d t)) - clf_ev prior (targets d (all_rows d)))%R.
Proof. exact (clf_total_gain srt k prior h d t). Qed.
Print Assumptions C64_clf_total.
Theorem C64_reg_total srt prior h d t : reg_setting srt prior h d -> h_delta h = 0%R -> reg_fit srt h d = Ok t ->
  exists x, log_odds (h_pp h) (h_prec h) d (all_rows d) t x /\
    total_gain t = (x + vsum (map (ng_logev prior) (leaf_targets d t)) - ng_logev prior (targets d (all_rows d)))%R.
Proof. exact (reg_total_gain srt prior h d t). Qed.
Print Assumptions C64_reg_total.
(** A tree with two splits; [C63_case] is an instance for regression. *)
Example C64_case prn : clf_setting sort_R 3 (map IZR [1; 1; 1]%Z) (ex1_h prn) (real_set ex1) /\ h_delta (ex1_h prn) = 0%R /\
  exists t, clf_fit sort_R (ex1_h prn) (real_set ex1) = Ok t /\ height t = 2 /\ length (leaves t) = 3.
Proof. exact (ex1_full prn). Qed.
