(** * Properties of printed trees: C77.

    [num] and [vec] stand for Python's formatting of floats and of arrays of floats. *)
From Coq Require Import Reals QArith String.
From Verif Require Import Prelude Tree Perp RealOps Clf Reg Api Hyper Spec OptProofs ApiSpec Str StrSpec StrTrees StrWitness ReadSpec ReadModel Exec Witness RegWitness
  HyperSpec HyperExec HyperWitness InfluenceWitness.
Local Open Scope nat_scope.

(** ** C77: reading the text gives back the tree *)
Theorem C77_clf_read num vec (t : ctree) :
  (forall d, In d (descs t) -> one_line (lit (sd_name d)) /\ plain (num (sd_val d))) ->
  (forall i, In i (leaves t) -> one_line (vec (clf_posterior_mean (i_post i)))) ->
  read_tree read_perp_split perp_side true (clf_text num vec t) =
  Some (shows (fun d => lit (sd_name d)) (fun d => num (sd_val d)) (fun p => dec (clf_predict_leaf p)) (Some (fun p => vec (clf_posterior_mean p))) t).
Proof. exact (clf_read num vec t). Qed.
Print Assumptions C77_clf_read.
Theorem C77_reg_read num (t : rtree) :
  (forall d, In d (descs t) -> one_line (lit (sd_name d)) /\ plain (num (sd_val d))) ->
  (forall i, In i (leaves t) -> plain (num (reg_predict_leaf (i_post i)))) ->
  read_tree read_perp_split perp_side false (reg_text num t) =
  Some (shows (fun d => lit (sd_name d)) (fun d => num (sd_val d)) (fun p => num (reg_predict_leaf p)) None t).
Proof. exact (reg_read num t). Qed.
Print Assumptions C77_reg_read.
Theorem C77_hclf_read vec (t : hctree) :
  (forall d, In d (descs t) -> plain (vec (p_origin d)) /\ one_line (vec (p_normal d))) ->
  (forall i, In i (leaves t) -> one_line (vec (clf_posterior_mean (i_post i)))) ->
  read_tree read_hyper_split hyper_side true (hclf_text vec t) =
  Some (shows (fun d => vec (p_origin d)) (fun d => vec (p_normal d)) (fun p => dec (clf_predict_leaf p)) (Some (fun p => vec (clf_posterior_mean p))) t).
Proof. exact (hclf_read vec t). Qed.
Print Assumptions C77_hclf_read.
Theorem C77_hreg_read num vec (t : hrtree) :
  (forall d, In d (descs t) -> plain (vec (p_origin d)) /\ one_line (vec (p_normal d))) ->
  (forall i, In i (leaves t) -> plain (num (reg_predict_leaf (i_post i)))) ->
  read_tree read_hyper_split hyper_side false (hreg_text num vec t) =
  Some (shows (fun d => vec (p_origin d)) (fun d => vec (p_normal d)) (fun p => num (reg_predict_leaf p)) None t).
Proof. exact (hreg_read num vec t). Qed.
Print Assumptions C77_hreg_read.

(** ** Models that print the same predict the same *)
Theorem C77_clf_same_text num vec srt srt' h h' d d' t t' : clf_fit srt h d = Ok t -> clf_fit srt' h' d' = Ok t' ->
  ts_names d = ts_names d' -> NoDup (ts_names d) -> (forall s, In s (ts_names d) -> one_line (lit s)) ->
  (forall s, In s (descs t ++ descs t') -> plain (num (sd_val s))) -> tells num (map sd_val (descs t)) (map sd_val (descs t')) ->
  (forall i, In i (leaves t ++ leaves t') -> one_line (vec (clf_posterior_mean (i_post i)))) ->
  clf_text num vec t = clf_text num vec t' -> forall Xq m, clf_predict t Xq m = clf_predict t' Xq m.
Proof. exact (clf_same_text num vec srt srt' h h' d d' t t'). Qed.
Print Assumptions C77_clf_same_text.
Theorem C77_reg_same_text num srt srt' h h' d d' t t' : reg_fit srt h d = Ok t -> reg_fit srt' h' d' = Ok t' ->
  ts_names d = ts_names d' -> NoDup (ts_names d) -> (forall s, In s (ts_names d) -> one_line (lit s)) ->
  (forall s, In s (descs t ++ descs t') -> plain (num (sd_val s))) -> tells num (map sd_val (descs t)) (map sd_val (descs t')) ->
  (forall i, In i (leaves t ++ leaves t') -> plain (num (reg_predict_leaf (i_post i)))) ->
  tells num (map (fun i => reg_predict_leaf (i_post i)) (leaves t)) (map (fun i => reg_predict_leaf (i_post i)) (leaves t')) ->
  reg_text num t = reg_text num t' -> forall Xq m, reg_predict t Xq m = reg_predict t' Xq m.
Proof. exact (reg_same_text num srt srt' h h' d d' t t'). Qed.
Print Assumptions C77_reg_same_text.
Theorem C77_hclf_same_text vec (t t' : hctree) :
  (forall s, In s (descs t ++ descs t') -> plain (vec (p_origin s)) /\ one_line (vec (p_normal s))) ->
  tells vec (map p_origin (descs t)) (map p_origin (descs t')) -> tells vec (map p_normal (descs t)) (map p_normal (descs t')) ->
  (forall i, In i (leaves t ++ leaves t') -> one_line (vec (clf_posterior_mean (i_post i)))) ->
  hclf_text vec t = hclf_text vec t' -> forall Xq m, hclf_predict t Xq m = hclf_predict t' Xq m.
Proof. exact (hclf_same_text vec t t'). Qed.
Print Assumptions C77_hclf_same_text.
Theorem C77_hreg_same_text num vec (t t' : hrtree) :
  (forall s, In s (descs t ++ descs t') -> plain (vec (p_origin s)) /\ one_line (vec (p_normal s))) ->
  tells vec (map p_origin (descs t)) (map p_origin (descs t')) -> tells vec (map p_normal (descs t)) (map p_normal (descs t')) ->
  (forall i, In i (leaves t ++ leaves t') -> plain (num (reg_predict_leaf (i_post i)))) ->
  tells num (map (fun i => reg_predict_leaf (i_post i)) (leaves t)) (map (fun i => reg_predict_leaf (i_post i)) (leaves t')) ->
  hreg_text num vec t = hreg_text num vec t' -> forall Xq m, hreg_predict t Xq m = hreg_predict t' Xq m.
Proof. exact (hreg_same_text num vec t t'). Qed.
Print Assumptions C77_hreg_same_text.
(** With repeated column names, two fits can print the same text and predict different classes. *)
Theorem C77_repeated_names_refuted : exists srt k prior h d d' t t' Xq,
  clf_setting srt k prior h d /\ clf_setting srt k prior h d' /\ clf_fit srt h d = Ok t /\ clf_fit srt h d' = Ok t' /\ ts_names d = ts_names d' /\
  (forall num vec, clf_text num vec t = clf_text num vec t') /\ clf_predict t Xq 1 = [0%R] /\ clf_predict t' Xq 1 = [1%R].
Proof. exact repeated_names. Qed.
Print Assumptions C77_repeated_names_refuted.

Example C77_case : let h := hyp (9 # 10) [1;1]%Z 0 false 0 in let d := real_set ex_distinct in let d' := real_set ex_distinct' in
  exists t t', clf_setting sort_R 2 (map IZR [1;1]%Z) h d /\ clf_fit sort_R h d = Ok t /\ clf_fit sort_R h d' = Ok t' /\
  ts_names d = ts_names d' /\ NoDup (ts_names d) /\ (forall s, In s (ts_names d) -> one_line (lit s)) /\
  (forall s, In s (descs t ++ descs t') -> plain (ex_num (sd_val s))) /\ tells ex_num (map sd_val (descs t)) (map sd_val (descs t')) /\
  (forall i, In i (leaves t ++ leaves t') -> one_line (ex_vec (clf_posterior_mean (i_post i)))) /\
  clf_text ex_num ex_vec t = clf_text ex_num ex_vec t' /\
  map ascii_art (lines (clf_text ex_num ex_vec t)) = ["x=0.5"; " T <0.5: y=0, n=2, p(y)=[0.75 0.25]"; " L G0.5: y=1, n=2, p(y)=[0.25 0.75]"]%string.
Proof. exact print_case. Qed.
Example C77_hyper_case : exists t, hclf_fit vecR sort_R (same_cands [[1;0]]%Q) (qhyp (9 # 10) [1;1]%Z 0 false 0) (hsetR hw) = Ok t /\ List.length (splits t) = 1 /\
  (forall s, In s (descs t ++ descs t) -> plain (ex_vec (p_origin s)) /\ one_line (ex_vec (p_normal s))) /\
  tells ex_vec (map p_origin (descs t)) (map p_origin (descs t)) /\ tells ex_vec (map p_normal (descs t)) (map p_normal (descs t)) /\
  (forall i, In i (leaves t ++ leaves t) -> one_line (ex_vec (clf_posterior_mean (i_post i)))).
Proof. exact hyper_print_case. Qed.
Example C77_reg_case : exists t, reg_fit sort_R (half_h false) (two_set (fun i => INR i)) = Ok t /\
  (forall s, In s (ts_names (two_set (fun i => INR i))) -> one_line (lit s)) /\ NoDup (ts_names (two_set (fun i => INR i))) /\
  (forall s, In s (descs t ++ descs t) -> plain (ex_num (sd_val s))).
Proof. exact reg_print_case. Qed.
