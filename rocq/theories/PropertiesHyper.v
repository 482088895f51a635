(** * Properties of the hyperplane trees: C34-C38, C54, C55 and the hyperplane versions of C03-C06, C11, C13 and C22.

    [pre] turns a candidate evaluated by the optimizer into a vector (its unit vector is the normal), [cands path] are the
    candidates evaluated at a node; both are arbitrary, so every (terminating) optimizer is covered. *)
From Coq Require Import QArith Qreals Reals Permutation.
From Verif Require Import Prelude Tree Perp RealOps Clf Reg Api Importance Hyper Spec OptSpec OptProofs ClfSpec ClfProofs RegSpec RegProofs ApiSpec HyperSpec.
From Verif Require Import Witness RegWitness HyperExec HyperLemmas HyperWitness.
Local Open Scope nat_scope.

(** The example problems used below: three classes in the plane with oblique candidate normals, and a regression
    problem on the line. *)
Example hyper_case delta prn : hclf_setting sort_R 3 [1; 1; 1]%R (hx1_h delta prn) (hsetR hx1) /\
  all_spread vecR (same_cands hx1_cs) (h_prec (hx1_h delta prn)) (hsetR hx1) /\ cands_ok vecR (same_cands hx1_cs) 2 /\
  exists t, hclf_fit vecR sort_R (same_cands hx1_cs) (hx1_h delta prn) (hsetR hx1) = Ok t /\ height t = 2 /\ length (leaves t) = 3 /\
    exists s, In s (splits t) /\ (0 < hgain s)%R.
Proof. exact (hx1_fit delta prn). Qed.
Example hyper_reg_case delta : hreg_setting sort_R p1 (hreg_h delta false) hreg_set /\
  all_spread (fun v => v) (same_cands hreg_cs) (h_prec (hreg_h delta false)) hreg_set /\
  exists t, hreg_fit (fun v => v) sort_R (same_cands hreg_cs) (hreg_h delta false) hreg_set = Ok t /\ 1 <= length (splits t).
Proof. exact (conj (hreg_set_ok delta false) (conj (hreg_spread delta false) (hreg_fit_split delta))). Qed.

(** ** C34 *)
Theorem C34_best_kept {C} (pre : C -> list R) prec srt pp delta k prior X y n_dim lvl rows ns next steps :
  sorts Rleb srt -> n_dim <> 0 -> clf_pok k prior -> (forall i, In i rows -> clf_yok k (y i)) ->
  let G := geo_R pre prec srt in
  let r := opt_adaptive G (clf_lik pp delta) X y n_dim lvl prior rows ns next steps (opt_init G ns) [] in
  exists cs, chosen next cs (snd r) /\
    best_kept prec srt (fun l r m => (ln (pp ^ (1 + lvl) / (INR m * INR n_dim)) + clf_ev prior l + clf_ev prior r)%R) X y rows ns
      (map (fun c => unit_vec (pre c)) cs) (snd r) (fst r).
Proof. exact (hclf_kept pre prec srt pp delta k prior X y n_dim lvl rows ns next steps). Qed.
Print Assumptions C34_best_kept.
Theorem C34_best_kept_reg {C} (pre : C -> list R) prec srt pp delta prior X y n_dim lvl rows ns next steps :
  sorts Rleb srt -> n_dim <> 0 -> reg_pok prior ->
  let G := geo_R pre prec srt in
  let r := opt_adaptive G (reg_lik pp delta) X y n_dim lvl prior rows ns next steps (opt_init G ns) [] in
  exists cs, chosen next cs (snd r) /\
    best_kept prec srt (fun l r m => (ln (pp ^ (1 + lvl) / (INR m * INR n_dim)) + ng_logev prior l + ng_logev prior r)%R) X y rows ns
      (map (fun c => unit_vec (pre c)) cs) (snd r) (fst r).
Proof. exact (hreg_kept pre prec srt pp delta prior X y n_dim lvl rows ns next steps). Qed.
Print Assumptions C34_best_kept_reg.
Example C34_case : sorts Rleb sort_R /\ hs_dim (hsetR hx1) <> 0 /\ clf_pok 3 [1; 1; 1]%R /\
  (forall i, In i (hrows (hsetR hx1)) -> clf_yok 3 (hs_y (hsetR hx1) i)) /\ reg_pok p1.
Proof. exact kept_case. Qed.

(** ** C35 *)
Theorem C35_nodes {C} (pre : C -> list R) srt cands k prior h d t : hclf_setting srt k prior h d -> hclf_fit pre srt cands h d = Ok t ->
  every_hnode d t (fun rows n => rows <> [] /\ i_n_data (info n) = length rows /\
    i_post (info n) = add_counts 1 prior (htargets d rows) /\ i_prior (info n) = Some prior).
Proof. exact (hclf_nodes pre srt cands k prior h d t). Qed.
Print Assumptions C35_nodes.
Theorem C35_nodes_reg {C} (pre : C -> list R) srt cands prior h d t : hreg_setting srt prior h d -> hreg_fit pre srt cands h d = Ok t ->
  every_hnode d t (fun rows n => rows <> [] /\ i_n_data (info n) = length rows /\
    i_post (info n) = ng_update 1 prior (htargets d rows) /\ (i_prior (info n) = h_prior h \/ i_prior (info n) = Some prior)).
Proof. exact (hreg_nodes pre srt cands prior h d t). Qed.
Print Assumptions C35_nodes_reg.

(** ** C36: false of the code; true if all projections differ *)
Theorem C36_row_order_refuted : exists (cands : list bool -> list (list Q)) pre srt k prior h d sigma t t' Xq,
  hclf_setting srt k prior h d /\ reordering (hs_n d) sigma /\
  hclf_fit pre srt cands h d = Ok t /\ hclf_fit pre srt cands h (hreorder sigma d) = Ok t' /\
  hclf_predict t Xq 1 = [1%R] /\ hclf_predict t' Xq 1 = [0%R].
Proof. exact order_matters. Qed.
Print Assumptions C36_row_order_refuted.
Theorem C36_row_order_distinct {C} (pre : C -> list R) srt srt' cands k prior h d sigma t : hclf_setting srt k prior h d -> sorts Rleb srt' ->
  all_spread pre cands (h_prec h) d -> reordering (hs_n d) sigma ->
  hclf_fit pre srt cands h d = Ok t -> hclf_fit pre srt' cands h (hreorder sigma d) = Ok t.
Proof. exact (hclf_reorder pre srt srt' cands k prior h d sigma t). Qed.
Print Assumptions C36_row_order_distinct.
Theorem C36_row_order_distinct_reg {C} (pre : C -> list R) srt srt' cands prior h d sigma t : hreg_setting srt prior h d -> sorts Rleb srt' ->
  all_spread pre cands (h_prec h) d -> reordering (hs_n d) sigma ->
  hreg_fit pre srt cands h d = Ok t -> hreg_fit pre srt' cands h (hreorder sigma d) = Ok t.
Proof. exact (hreg_reorder pre srt srt' cands prior h d sigma t). Qed.
Print Assumptions C36_row_order_distinct_reg.
Example C36_case : sorts Rleb sort_R /\ reordering (hs_n (hsetR hx1)) (fun i => 8 - i).
Proof. exact reorder_case. Qed.

(** ** C37: false of the code; true if all projections differ *)
Theorem C37_evidence_refuted : exists (cands : list bool -> list (list Q)) pre srt k prior h d i pl v_no v_best c1 c2,
  hclf_setting srt k prior h d /\ hclf_fit pre srt cands h d = Ok (Split i pl v_no v_best c1 c2) /\
  forall m, 1 <= m ->
    v_best <> (ln (h_pp h ^ 1 / (INR m * INR (hs_dim d))) + clf_ev prior (htargets d (filter (behind (hs_X d) pl) (hrows d))) +
       clf_ev prior (htargets d (filter (before (hs_X d) pl) (hrows d))))%R.
Proof. exact wrong_evidence. Qed.
Print Assumptions C37_evidence_refuted.
Theorem C37_evidence_distinct {C} (pre : C -> list R) srt cands k prior h d t : hclf_setting srt k prior h d ->
  all_spread pre cands (h_prec h) d ->
  hclf_fit pre srt cands h d = Ok t -> every_hnode d t (recorded_evidence (h_pp h) (clf_ev prior) d).
Proof. exact (hclf_recorded pre srt cands k prior h d t). Qed.
Print Assumptions C37_evidence_distinct.
Theorem C37_evidence_distinct_reg {C} (pre : C -> list R) srt cands prior h d t : hreg_setting srt prior h d ->
  all_spread pre cands (h_prec h) d ->
  hreg_fit pre srt cands h d = Ok t -> every_hnode d t (recorded_evidence (h_pp h) (ng_logev prior) d).
Proof. exact (hreg_recorded pre srt cands prior h d t). Qed.
Print Assumptions C37_evidence_distinct_reg.

(** ** C38: false of the code *)
Theorem C38_delta_refuted {C} (pre : C -> list R) srt cands h d delta :
  hclf_fit pre srt cands (with_delta delta h) d = hclf_fit pre srt cands h d.
Proof. exact (hclf_delta pre srt cands h d delta). Qed.
Print Assumptions C38_delta_refuted.
Theorem C38_delta_reg_refuted {C} (pre : C -> list R) srt cands h d delta :
  hreg_fit pre srt cands (with_delta delta h) d = hreg_fit pre srt cands h d.
Proof. exact (hreg_delta pre srt cands h d delta). Qed.
Print Assumptions C38_delta_reg_refuted.

(** ** C03-C06 for hyperplane trees *)
Theorem C03_hyper_frequency {C} (pre : C -> list R) srt cands k prior h d t Xq m q c :
  hclf_setting srt k prior h d -> hclf_fit pre srt cands h d = Ok t -> q < m -> c < k ->
  let mates := hleaf_mates d t Xq q in
  exists p, nth_error (hclf_predict_proba t Xq m) q = Some (Some p) /\ length p = k /\
    nth c p 0%R = ((nth c prior 0 + INR (count_label c (htargets d mates))) / (vsum prior + INR (length mates)))%R.
Proof. exact (hclf_proba_frequency pre srt cands k prior h d t Xq m q c). Qed.
Print Assumptions C03_hyper_frequency.
Theorem C04_hyper_distribution {C} (pre : C -> list R) srt cands k prior h d t Xq m q :
  hclf_setting srt k prior h d -> hclf_fit pre srt cands h d = Ok t -> q < m ->
  exists p, nth_error (hclf_predict_proba t Xq m) q = Some (Some p) /\ length p = k /\
    Forall (fun x => (0 < x)%R) p /\ vsum p = 1%R.
Proof. exact (hclf_proba_dist pre srt cands k prior h d t Xq m q). Qed.
Print Assumptions C04_hyper_distribution.
Theorem C05_hyper_first_max {C} (pre : C -> list R) srt cands k prior h d t Xq m q :
  hclf_setting srt k prior h d -> hclf_fit pre srt cands h d = Ok t -> q < m ->
  exists p c, nth_error (hclf_predict_proba t Xq m) q = Some (Some p) /\ nth_error (hclf_predict t Xq m) q = Some (INR c) /\
    c < length p /\ (forall j, j < length p -> (nth j p 0 <= nth c p 0)%R) /\ (forall j, j < c -> (nth j p 0 < nth c p 0)%R).
Proof. exact (hclf_first_max pre srt cands k prior h d t Xq m q). Qed.
Print Assumptions C05_hyper_first_max.
Theorem C06_hyper_mean {C} (pre : C -> list R) srt cands prior h d t Xq m q :
  hreg_setting srt prior h d -> hreg_fit pre srt cands h d = Ok t -> q < m ->
  let mates := hleaf_mates d t Xq q in
  nth_error (hreg_predict t Xq m) q =
    Some ((ng_kappa prior * ng_mu prior + vsum (htargets d mates)) / (ng_kappa prior + INR (length mates)))%R.
Proof. exact (hreg_mean pre srt cands prior h d t Xq m q). Qed.
Print Assumptions C06_hyper_mean.

(** ** C11 for hyperplane trees *)
Theorem C11_hyper_structure {C} (pre : C -> list R) srt cands h d t : 0 < hs_n d -> hclf_fit pre srt cands h d = Ok t ->
  i_n_data (info t) = hs_n d /\ counts_ok t /\ levels_ok 0 t /\
  get_n_leaves t = length (leaves t) /\ 1 <= length (leaves t) <= hs_n d /\
  get_depth t = height t /\ height t < hs_n d.
Proof. exact (hclf_structure pre srt cands h d t). Qed.
Print Assumptions C11_hyper_structure.
Theorem C11_hyper_structure_reg {C} (pre : C -> list R) srt cands h d t : 0 < hs_n d -> hreg_fit pre srt cands h d = Ok t ->
  i_n_data (info t) = hs_n d /\ counts_ok t /\ levels_ok 0 t /\
  get_n_leaves t = length (leaves t) /\ 1 <= length (leaves t) <= hs_n d /\
  get_depth t = height t /\ height t < hs_n d.
Proof. exact (hreg_structure pre srt cands h d t). Qed.
Print Assumptions C11_hyper_structure_reg.

(** ** C13 for hyperplane trees: false of the code (a split without gain) *)
Theorem C13_hyper_importance_nan_refuted : exists (cands : list bool -> list (list Q)) pre srt k prior h d t,
  hclf_setting srt k prior h d /\ hclf_fit pre srt cands h d = Ok t /\ length (splits t) = 1 /\
  hyper_feature_importance t = Ok [None].
Proof. exact zero_gain_importance. Qed.
Print Assumptions C13_hyper_importance_nan_refuted.

(** ** C22 for hyperplane trees *)
Theorem C22_hyper_rowwise t Xq m :
  hrowwise (fun i => INR (clf_predict_leaf (i_post i))) t Xq m (hclf_predict t Xq m) /\
  hrowwise (fun i => Some (clf_posterior_mean (i_post i))) t Xq m (hclf_predict_proba t Xq m).
Proof. exact (hclf_rowwise t Xq m). Qed.
Print Assumptions C22_hyper_rowwise.
Theorem C22_hyper_rowwise_reg t Xq m : hrowwise (fun i => reg_predict_leaf (i_post i)) t Xq m (hreg_predict t Xq m).
Proof. exact (hreg_rowwise t Xq m). Qed.
Print Assumptions C22_hyper_rowwise_reg.

(** ** C54: splits are best among the evaluated candidates; gains and importances *)
Theorem C54_optimal {C} (pre : C -> list R) srt cands k prior h d t : hclf_setting srt k prior h d -> hclf_fit pre srt cands h d = Ok t ->
  every_hnode d t (fun rows n => (h_prune h = true /\ exists i, n = Leaf i) \/
    optimal_node pre (h_prec h) srt cands (h_pp h) (clf_ev prior) d rows n).
Proof. exact (hclf_optimal pre srt cands k prior h d t). Qed.
Print Assumptions C54_optimal.
Theorem C54_optimal_reg {C} (pre : C -> list R) srt cands prior h d t : hreg_setting srt prior h d -> hreg_fit pre srt cands h d = Ok t ->
  every_hnode d t (fun rows n => (h_prune h = true /\ exists i, n = Leaf i) \/
    optimal_node pre (h_prec h) srt cands (h_pp h) (ng_logev prior) d rows n).
Proof. exact (hreg_optimal pre srt cands prior h d t). Qed.
Print Assumptions C54_optimal_reg.
Theorem C54_unit_normals {C} (pre : C -> list R) srt cands k prior h d t : hclf_setting srt k prior h d -> cands_ok pre cands (hs_dim d) ->
  hclf_fit pre srt cands h d = Ok t -> unit_normals (hs_dim d) t /\ (forall s, In s (splits t) -> (0 <= hgain s)%R).
Proof. exact (hclf_unit pre srt cands k prior h d t). Qed.
Print Assumptions C54_unit_normals.
Theorem C54_unit_normals_reg {C} (pre : C -> list R) srt cands prior h d t : hreg_setting srt prior h d -> cands_ok pre cands (hs_dim d) ->
  hreg_fit pre srt cands h d = Ok t -> unit_normals (hs_dim d) t /\ (forall s, In s (splits t) -> (0 <= hgain s)%R).
Proof. exact (hreg_unit pre srt cands prior h d t). Qed.
Print Assumptions C54_unit_normals_reg.
Theorem C54_importance {C} (pre : C -> list R) srt cands k prior h d t : hclf_setting srt k prior h d -> cands_ok pre cands (hs_dim d) ->
  hclf_fit pre srt cands h d = Ok t -> (exists s, In s (splits t) /\ (0 < hgain s)%R) ->
  exists v, hyper_feature_importance t = Ok (map Some v) /\ is_himportance (hs_dim d) t v.
Proof. exact (hclf_importance pre srt cands k prior h d t). Qed.
Print Assumptions C54_importance.
Theorem C54_importance_reg {C} (pre : C -> list R) srt cands prior h d t : hreg_setting srt prior h d -> cands_ok pre cands (hs_dim d) ->
  hreg_fit pre srt cands h d = Ok t -> (exists s, In s (splits t) /\ (0 < hgain s)%R) ->
  exists v, hyper_feature_importance t = Ok (map Some v) /\ is_himportance (hs_dim d) t v.
Proof. exact (hreg_importance pre srt cands prior h d t). Qed.
Print Assumptions C54_importance_reg.

(** ** C55: the recursion ends, whatever hyperplanes are found *)
Theorem C55_total {C} (pre : C -> list R) srt cands h d : exists t, hclf_fit pre srt cands h d = Ok t.
Proof. exact (hclf_total pre srt cands h d). Qed.
Print Assumptions C55_total.
Theorem C55_total_reg {C} (pre : C -> list R) srt cands h d : exists t, hreg_fit pre srt cands h d = Ok t.
Proof. exact (hreg_total pre srt cands h d). Qed.
Print Assumptions C55_total_reg.
