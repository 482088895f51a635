(** * SparseLemmas: composite statements, closed in PropertiesSparse.v. *)
From Coq Require Import Reals Lra.
From Verif Require Import Prelude Lists Tree Perp RealOps Clf Reg Api Validate Hyper ApiSpec Sparse SparseSpec SparseProofs SparseHyper.
Local Open Scope nat_scope.

Lemma toarray_spec {A} (zero : A) add M : s_ok M ->
  a_shape (toarray zero add M) = [s_rows M; s_cols M] /\
  (forall i j, i < s_rows M -> j < s_cols M -> nth_error (a_data (toarray zero add M)) (i * s_cols M + j) = Some (entry zero add M i j)) /\
  (forall i j, entry zero add (to_csc M) i j = entry zero add M i j).
Proof.
  intros H. split; [reflexivity|]. split; [|intros; now apply entry_csc]. intros i j Hi Hj.
  rewrite <- (toarray_nth zero add M i j H Hi Hj). apply nth_error_nth'. rewrite toarray_length. nia.
Qed.

Lemma one_lane_shape {A} (zero : A) add dt n l : a_shape (to_array zero add (Csc (of_lanes dt n [l]))) = [n].
Proof.
  unfold to_array. assert (a_shape (toarray zero add (Csc (of_lanes dt n [l]))) = [n; 1]) as E by reflexivity.
  rewrite E. destruct n as [|[|n]]; unfold first_row, squeeze; cbn [a_shape]; rewrite E; reflexivity.
Qed.

Lemma as_vector_data {A} (a : arr A) v : as_vector a = Ok v -> a_data a = v.
Proof. unfold as_vector. destruct (a_shape a) as [|n [|]]; congruence. Qed.

Lemma to_array_spec {A} (zero : A) add M d idx : s_ok M ->
  let column := to_array zero add (column M d) in
  let part := to_array zero add (select M idx d) in
  a_shape column = [s_rows M] /\ a_data column = map (fun i => entry zero add M i d) (seq 0 (s_rows M)) /\
  a_shape part = [length idx] /\ a_data part = map (fun i => entry zero add M i d) idx.
Proof.
  intros H col part. split; [apply one_lane_shape|]. split; [apply as_vector_data; now apply read_column_ok|].
  split; [apply one_lane_shape|]. apply as_vector_data. now apply read_rows_ok.
Qed.

Lemma sparse_fit_dense {A V Y P S} (zero : A) add total (F : feat A V) (L : lik Y P S) y names same prn lvl pa M :
  s_ok M -> adds_up zero add total M ->
  sparse_fit zero add total F L y names same prn lvl pa M =
  perp_fit F L same prn lvl pa (mkSet (s_rows M) (s_cols M) (entry zero add M) y names).
Proof. intros H Ht. unfold sparse_fit, perp_fit. rewrite sparse_fit_root by auto. reflexivity. Qed.

Lemma sparse_predict_dense {A V S P O NM} (zero : A) add (F : feat A V) (val : ninfo P -> O) (t : tree (pdesc NM V) S P) M init :
  s_ok M ->
  spredict (schild_indices zero add F) val t M init =
  Ok (predict_rows (pgo1 F (entry zero add M)) (pgo2 F (entry zero add M)) val t (s_rows M) init).
Proof.
  intros H. unfold spredict, predict_rows. apply spredict_eq. intros idx d. rewrite schild_eq by (now apply csc_ok).
  unfold pgo1, pgo2. do 2 f_equal; f_equal; apply map_ext; intros i; now rewrite entry_csc.
Qed.

Lemma sparse_paths_dense {A V S P St NM} (zero : A) add (F : feat A V) (step : pdesc NM V -> bool -> St) (t : tree (pdesc NM V) S P) M :
  s_ok M ->
  spaths (schild_indices zero add F) step t M =
  Ok (prediction_paths (pgo1 F (entry zero add M)) (pgo2 F (entry zero add M)) step t (s_rows M)).
Proof.
  intros H. unfold spaths, prediction_paths. apply spaths_eq. intros idx d. rewrite schild_eq by (now apply csc_ok).
  unfold pgo1, pgo2. do 2 f_equal; f_equal; apply map_ext; intros i; now rewrite entry_csc.
Qed.

Lemma vsum_adds_up M : adds_up 0%R Rplus vsum M.
Proof. intros i j. unfold entry. rewrite fold_plus_vsum. lra. Qed.

Lemma sparse_clf srt h y names M Xq t : s_ok M -> s_ok Xq ->
  sparse_fit 0%R Rplus vsum (feat_R (h_prec h) srt) (clf_lik (h_pp h) (h_delta h)) y names clf_same (h_prune h) 0 (h_prior h) M =
    clf_fit srt h (mkSet (s_rows M) (s_cols M) (entry 0%R Rplus M) y names) /\
  spredict (schild_indices 0%R Rplus (feat_R (h_prec h) srt)) (fun i => INR (clf_predict_leaf (i_post i))) t Xq 0%R =
    Ok (clf_predict t (entry 0%R Rplus Xq) (s_rows Xq)).
Proof. intros H1 H2. split; [apply sparse_fit_dense; auto using vsum_adds_up|]. rewrite sparse_predict_dense by auto. reflexivity. Qed.
Lemma sparse_reg srt h y names M Xq t : s_ok M -> s_ok Xq ->
  sparse_fit 0%R Rplus vsum (feat_R (h_prec h) srt) (reg_lik (h_pp h) (h_delta h)) y names reg_same (h_prune h) 0 (h_prior h) M =
    reg_fit srt h (mkSet (s_rows M) (s_cols M) (entry 0%R Rplus M) y names) /\
  spredict (schild_indices 0%R Rplus (feat_R (h_prec h) srt)) (fun i => reg_predict_leaf (i_post i)) t Xq 0%R =
    Ok (reg_predict t (entry 0%R Rplus Xq) (s_rows Xq)).
Proof. intros H1 H2. split; [apply sparse_fit_dense; auto using vsum_adds_up|]. rewrite sparse_predict_dense by auto. reflexivity. Qed.

Lemma sparse_hpredict {S P O} (val : ninfo P -> O) (t : tree (plane (list R) (list R)) S P) M init : s_ok M ->
  spredict shyper_kids val t M init = Ok (predict_rows (behind (dense_row M)) (before (dense_row M)) val t (s_rows M) init).
Proof.
  intros H. unfold spredict, predict_rows. apply spredict_eq. intros idx d. rewrite shyper_kids_eq by (now apply csc_ok).
  unfold behind, before. do 2 f_equal; f_equal; apply map_ext; intros i; now rewrite csc_dense.
Qed.
