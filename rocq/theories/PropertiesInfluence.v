(** * Properties of columns that do not matter: C75 and C76. *)
From Coq Require Import Reals Lra QArith.
From Verif Require Import Prelude Tree Perp RealOps Clf Reg Api Hyper Spec OptSpec OptProofs ClfSpec RegSpec ApiSpec HyperSpec Importance CoarseSpec RedundantSpec RedundantProofs
  InfluenceSpec InfluenceProofs Exec Witness RegWitness HyperExec HyperWitness InfluenceWitness.
Local Open Scope nat_scope.

(** ** C75 *)
Theorem C75_clf_redundant srt k prior h d d' t t' : clf_setting srt k prior h d -> padded d d' -> ts_dim d' <= List.length (ts_names d') ->
  clf_fit srt h d = Ok t -> clf_fit srt h d' = Ok t' -> coarser t' (tree_with_dim (ts_dim d') t).
Proof. exact (clf_padded srt k prior h d d' t t'). Qed.
Print Assumptions C75_clf_redundant.
Theorem C75_reg_redundant srt prior h d d' t t' : reg_setting srt prior h d -> padded d d' -> ts_dim d' <= List.length (ts_names d') ->
  reg_fit srt h d = Ok t -> reg_fit srt h d' = Ok t' -> coarser t' (tree_with_dim (ts_dim d') t).
Proof. exact (reg_padded srt prior h d d' t t'). Qed.
Print Assumptions C75_reg_redundant.
(** A constant column can change the model. *)
Theorem C75_unchanged_refuted : exists srt k prior h d d' t t' Xq,
  clf_setting srt k prior h d /\ h_prune h = false /\ padded d d' /\ (forall i, ts_X d' i 1 = ts_X d' 0 1 \/ ts_n d' <= i) /\
  clf_fit srt h d = Ok t /\ clf_fit srt h d' = Ok t' /\ clf_predict t Xq 2 = [0%R; 1%R] /\ clf_predict t' Xq 2 = [0%R; 0%R].
Proof. exact constant_column. Qed.
Print Assumptions C75_unchanged_refuted.
Example C75_case : padded (real_set ex_narrow) (real_set ex_wide) /\ ts_dim (real_set ex_wide) <= List.length (ts_names (real_set ex_wide)).
Proof. exact (conj wide_padded wide_names). Qed.
(** A repeated column. *)
Example C75_copy : padded (two_set (fun i => INR i)) (mkSet 4 2 two_X (fun i => INR i) (ts_names (two_set (fun i => INR i)) ++ ts_names (two_set (fun i => INR i)))) /\
  exists h, reg_setting sort_R p1 h (two_set (fun i => INR i)).
Proof.
  split.
  - split; [reflexivity|]. split; [cbn; lia|]. split; [intros; split; reflexivity|]. split.
    + intros f Hf. cbn in Hf. assert (f = 0) as -> by lia. reflexivity.
    + intros f Hf. cbn in Hf. right. exists 0. split; [cbn; lia|]. reflexivity.
  - exists (half_h false). split; [apply sort_R_sorts|]. split; [apply half_h_ok|]. split; [apply two_set_ok|]. split; [reflexivity|]. exact p1_ok.
Qed.

(** ** C76 *)
Theorem C76_clf srt k prior h d t v f Xq Xq' m : clf_setting srt k prior h d -> clf_fit srt h d = Ok t -> feature_importance t = Ok v ->
  no_importance f v -> same_but f Xq Xq' ->
  clf_predict t Xq m = clf_predict t Xq' m /\ clf_predict_proba t Xq m = clf_predict_proba t Xq' m.
Proof. exact (clf_influence srt k prior h d t v f Xq Xq' m). Qed.
Print Assumptions C76_clf.
Theorem C76_reg srt prior h d t v f Xq Xq' m : reg_setting srt prior h d -> reg_fit srt h d = Ok t -> feature_importance t = Ok v ->
  no_importance f v -> same_but f Xq Xq' -> reg_predict t Xq m = reg_predict t Xq' m.
Proof. exact (reg_influence srt prior h d t v f Xq Xq' m). Qed.
Print Assumptions C76_reg.
Theorem C76_hclf {C} (pre : C -> list R) srt cands k prior h d t v f Xq Xq' m : hclf_setting srt k prior h d -> cands_ok pre cands (hs_dim d) ->
  hclf_fit pre srt cands h d = Ok t -> (forall s, In s (splits t) -> (0 < hgain s)%R) -> hyper_feature_importance t = Ok v ->
  no_importance f v -> same_rows_but f Xq Xq' ->
  hclf_predict t Xq m = hclf_predict t Xq' m /\ hclf_predict_proba t Xq m = hclf_predict_proba t Xq' m.
Proof. exact (hclf_influence pre srt cands k prior h d t v f Xq Xq' m). Qed.
Print Assumptions C76_hclf.
Theorem C76_hreg {C} (pre : C -> list R) srt cands prior h d t v f Xq Xq' m : hreg_setting srt prior h d -> cands_ok pre cands (hs_dim d) ->
  hreg_fit pre srt cands h d = Ok t -> (forall s, In s (splits t) -> (0 < hgain s)%R) -> hyper_feature_importance t = Ok v ->
  no_importance f v -> same_rows_but f Xq Xq' -> hreg_predict t Xq m = hreg_predict t Xq' m.
Proof. exact (hreg_influence pre srt cands prior h d t v f Xq Xq' m). Qed.
Print Assumptions C76_hreg.
(** Splits with gain 0 are kept by hyperplane trees and leave no trace in the importance. *)
Theorem C76_zero_gain_refuted : exists (cands : list bool -> list (list Q)) pre srt k prior h d t v Xq Xq',
  hclf_setting srt k prior h d /\ hclf_fit pre srt cands h d = Ok t /\ cands_ok pre cands (hs_dim d) /\
  hyper_feature_importance t = Ok v /\ v = [Some 0%R; Some 1%R] /\
  same_rows_but 0 Xq Xq' /\ hclf_predict t Xq 1 = [1%R] /\ hclf_predict t Xq' 1 = [0%R].
Proof. exact zero_importance_decides. Qed.
Print Assumptions C76_zero_gain_refuted.
Example C76_case : let h := hyp (9 # 10) [1;1]%Z 0 false 0 in
  clf_setting sort_R 2 (map IZR [1;1]%Z) h (real_set ex_wide) /\ exists t v, clf_fit sort_R h (real_set ex_wide) = Ok t /\
  List.length (splits t) = 1 /\ feature_importance t = Ok v /\ no_importance 1 v.
Proof. exact unused_case. Qed.
Example C76_hyper_case : let h := qhyp (9 # 10) [1;1]%Z 0 false 0 in
  hclf_setting sort_R 2 (map IZR [1;1]%Z) h (hsetR hw) /\ cands_ok vecR (same_cands [[1;0]]%Q) (hs_dim (hsetR hw)) /\
  exists t v, hclf_fit vecR sort_R (same_cands [[1;0]]%Q) h (hsetR hw) = Ok t /\ List.length (splits t) = 1 /\
  (forall s, In s (splits t) -> (0 < hgain s)%R) /\ hyper_feature_importance t = Ok v /\ no_importance 1 v.
Proof. exact hunused_case. Qed.
