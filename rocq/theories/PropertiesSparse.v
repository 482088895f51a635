(** * C28: sparse and dense input give the same model and the same answers.

    [entry zero add M i j] is the dense matrix a CSR or CSC matrix [M] stands for.  Element arithmetic, split arithmetic
    [F] and likelihoods [L] are arbitrary, so float64, integer and exact arithmetic are covered. *)
From Coq Require Import Reals.
From Verif Require Import Prelude Tree Perp RealOps Clf Reg Api Validate Hyper ApiSpec Exec Witness HyperExec HyperWitness.
From Verif Require Import Sparse SparseSpec SparseProofs SparseHyper SparseLemmas SparseWitness.
Local Open Scope nat_scope.

(** [toarray] returns the dense matrix; conversion to CSC does not change it. *)
Theorem C28_toarray {A} (zero : A) add M : s_ok M ->
  a_shape (toarray zero add M) = [s_rows M; s_cols M] /\
  (forall i j, i < s_rows M -> j < s_cols M -> nth_error (a_data (toarray zero add M)) (i * s_cols M + j) = Some (entry zero add M i j)) /\
  (forall i j, entry zero add (to_csc M) i j = entry zero add M i j).
Proof. exact (toarray_spec zero add M). Qed.
Print Assumptions C28_toarray.

(** [_to_array] returns a one-dimensional array for every selection, including those with one or no element. *)
Theorem C28_to_array {A} (zero : A) add M d idx : s_ok M ->
  let column := to_array zero add (column M d) in
  let part := to_array zero add (select M idx d) in
  a_shape column = [s_rows M] /\ a_data column = map (fun i => entry zero add M i d) (seq 0 (s_rows M)) /\
  a_shape part = [length idx] /\ a_data part = map (fun i => entry zero add M i d) idx.
Proof. exact (to_array_spec zero add M d idx). Qed.
Print Assumptions C28_to_array.

Theorem C28_fit {A V Y P S} (zero : A) add total (F : feat A V) (L : lik Y P S) y names same prn lvl pa M :
  s_ok M -> adds_up zero add total M ->
  sparse_fit zero add total F L y names same prn lvl pa M =
  perp_fit F L same prn lvl pa (mkSet (s_rows M) (s_cols M) (entry zero add M) y names).
Proof. exact (sparse_fit_dense zero add total F L y names same prn lvl pa M). Qed.
Print Assumptions C28_fit.

Theorem C28_predict {A V S P O NM} (zero : A) add (F : feat A V) (val : ninfo P -> O) (t : tree (pdesc NM V) S P) M init :
  s_ok M ->
  spredict (schild_indices zero add F) val t M init =
  Ok (predict_rows (pgo1 F (entry zero add M)) (pgo2 F (entry zero add M)) val t (s_rows M) init).
Proof. exact (sparse_predict_dense zero add F val t M init). Qed.
Print Assumptions C28_predict.

Theorem C28_paths {A V S P St NM} (zero : A) add (F : feat A V) (step : pdesc NM V -> bool -> St) (t : tree (pdesc NM V) S P) M :
  s_ok M ->
  spaths (schild_indices zero add F) step t M =
  Ok (prediction_paths (pgo1 F (entry zero add M)) (pgo2 F (entry zero add M)) step t (s_rows M)).
Proof. exact (sparse_paths_dense zero add F step t M). Qed.
Print Assumptions C28_paths.

(** Classification and regression trees over the reals. *)
Theorem C28_clf srt h y names M Xq t : s_ok M -> s_ok Xq ->
  sparse_fit 0%R Rplus vsum (feat_R (h_prec h) srt) (clf_lik (h_pp h) (h_delta h)) y names clf_same (h_prune h) 0 (h_prior h) M =
    clf_fit srt h (mkSet (s_rows M) (s_cols M) (entry 0%R Rplus M) y names) /\
  spredict (schild_indices 0%R Rplus (feat_R (h_prec h) srt)) (fun i => INR (clf_predict_leaf (i_post i))) t Xq 0%R =
    Ok (clf_predict t (entry 0%R Rplus Xq) (s_rows Xq)).
Proof. exact (sparse_clf srt h y names M Xq t). Qed.
Print Assumptions C28_clf.
Theorem C28_reg srt h y names M Xq t : s_ok M -> s_ok Xq ->
  sparse_fit 0%R Rplus vsum (feat_R (h_prec h) srt) (reg_lik (h_pp h) (h_delta h)) y names reg_same (h_prune h) 0 (h_prior h) M =
    reg_fit srt h (mkSet (s_rows M) (s_cols M) (entry 0%R Rplus M) y names) /\
  spredict (schild_indices 0%R Rplus (feat_R (h_prec h) srt)) (fun i => reg_predict_leaf (i_post i)) t Xq 0%R =
    Ok (reg_predict t (entry 0%R Rplus Xq) (s_rows Xq)).
Proof. exact (sparse_reg srt h y names M Xq t). Qed.
Print Assumptions C28_reg.

Example C28_case : s_ok sx_csr /\ s_ok sx_csc /\ s_ok sx_query /\ adds_up 0%Z Z.add sx_total sx_csr /\
  a_data (toarray 0%Z Z.add sx_csr) = [0; 2; 0; 1; 0; 0; 5; 0; 3; 4; 0; 1]%Z /\
  sx_fit sx_csr = Ok sx_tree /\ sx_fit sx_csc = Ok sx_tree /\ is_leaf sx_tree = false /\
  spredict (schild_indices 0%Z Z.add (zfeat 0)) (fun i => zargmax (i_post i)) sx_tree sx_query 0 = Ok [1].
Proof. exact (conj (proj1 sx_ok) (conj (proj1 (proj2 sx_ok)) (conj (proj2 (proj2 sx_ok)) (conj (sx_adds _) (conj (proj1 sx_dense) sx_fit_tree))))). Qed.

(** Hyperplane trees over the reals. *)
Theorem C28_hyper_fit {C P S} (pre : C -> list R) prec srt (L : lik R P S) post same prn lvl pa cands M ys :
  permutes srt -> reads_keys srt -> s_ok M -> length ys = s_rows M ->
  sparse_hfit pre prec srt L post cands same prn lvl pa M ys =
  hyper_fit (geo_R pre prec srt) L post same prn lvl pa cands (mkHSet (s_rows M) (s_cols M) (dense_row M) (fun i => nth i ys 0%R)).
Proof. exact (sparse_hfit_eq pre prec srt L post same prn lvl pa cands M ys). Qed.
Print Assumptions C28_hyper_fit.
Theorem C28_hyper_predict {S P O} (val : ninfo P -> O) (t : tree (plane (list R) (list R)) S P) M init : s_ok M ->
  spredict shyper_kids val t M init = Ok (predict_rows (behind (dense_row M)) (before (dense_row M)) val t (s_rows M) init).
Proof. exact (sparse_hpredict val t M init). Qed.
Print Assumptions C28_hyper_predict.
Example C28_hyper_case : permutes sort_R /\ reads_keys sort_R /\ s_ok sh /\ length (map INR sh_y) = s_rows sh /\
  exists t, hclf_fit vecR sort_R (same_cands sh_cs) sh_h (mkHSet (s_rows sh) (s_cols sh) (dense_row sh) (fun i => nth i (map INR sh_y) 0%R)) = Ok t /\
    is_leaf t = false.
Proof. exact sh_fit. Qed.
