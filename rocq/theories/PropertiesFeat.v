(** * Properties of changed features: C65, C66. *)
From Coq Require Import QArith Reals.
From Verif Require Import Prelude Tree Perp RealOps Clf Reg Api Spec OptProofs ClfSpec RegSpec ApiSpec MonoSpec ColsSpec.
From Verif Require Import Exec Witness MonoProofs MonoWitness ColsProofs ColsWitness.
Local Open Scope nat_scope.

(** ** C65 *)
Theorem C65_clf_increasing srt srt' k prior h d g t :
  clf_setting srt k prior h d -> sorts Rleb srt' -> h_prec h = 0%R -> increasing g -> clf_fit srt h d = Ok t ->
  exists t', clf_fit srt' h (map_features g d) = Ok t' /\ alike (ts_X d) (map_X g (ts_X d)) (all_rows d) t t' /\
    clf_predict t' (map_X g (ts_X d)) (ts_n d) = clf_predict t (ts_X d) (ts_n d) /\
    clf_predict_proba t' (map_X g (ts_X d)) (ts_n d) = clf_predict_proba t (ts_X d) (ts_n d).
Proof. exact (clf_mono srt srt' k prior h d g t). Qed.
Print Assumptions C65_clf_increasing.
Theorem C65_reg_increasing srt srt' prior h d g t :
  reg_setting srt prior h d -> sorts Rleb srt' -> h_prec h = 0%R -> increasing g -> reg_fit srt h d = Ok t ->
  exists t', reg_fit srt' h (map_features g d) = Ok t' /\ alike (ts_X d) (map_X g (ts_X d)) (all_rows d) t t' /\
    reg_predict t' (map_X g (ts_X d)) (ts_n d) = reg_predict t (ts_X d) (ts_n d).
Proof. exact (reg_mono srt srt' prior h d g t). Qed.
Print Assumptions C65_reg_increasing.
(** For other rows than the training rows the answer may change. *)
Theorem C65_queries_refuted : exists srt k prior h d g t t' (Xq : nat -> nat -> R),
  clf_setting srt k prior h d /\ h_prec h = 0%R /\ increasing g /\
  clf_fit srt h d = Ok t /\ clf_fit srt h (map_features g d) = Ok t' /\
  clf_predict t Xq 1 = [1%R] /\ clf_predict t' (map_X g Xq) 1 = [0%R].
Proof. exact mono_query. Qed.
Print Assumptions C65_queries_refuted.
(** An increasing change that is not affine. *)
Example C65_case prn : clf_setting sort_R 3 (map IZR [1; 1; 1]%Z) (ex1_h prn) (real_set ex1) /\ h_prec (ex1_h prn) = 0%R /\ increasing cube /\
  exists t, clf_fit sort_R (ex1_h prn) (real_set ex1) = Ok t /\ height t = 2 /\ length (leaves t) = 3.
Proof. exact (mono_case prn). Qed.

(** ** C66: [t0] is the tree before pruning *)
Theorem C66_clf_columns srt srt' k prior h d sigma tau t0 t :
  clf_setting srt k prior h d -> sorts Rleb srt' -> column_perm (ts_dim d) sigma tau ->
  clf_fit srt (mkHyper (h_pp h) (h_prior h) (h_delta h) false (h_prec h)) d = Ok t0 ->
  every_node d t0 (no_rival (h_pp h) (h_prec h) clf_ev (clf_dflt (ts_dim d)) d) ->
  clf_fit srt h d = Ok t ->
  clf_fit srt' h (permute_columns sigma d) = Ok (renumber tau t) /\
  forall Xq m, clf_predict (renumber tau t) (permute_X sigma Xq) m = clf_predict t Xq m /\
    clf_predict_proba (renumber tau t) (permute_X sigma Xq) m = clf_predict_proba t Xq m.
Proof. exact (clf_cols srt srt' k prior h d sigma tau t0 t). Qed.
Print Assumptions C66_clf_columns.
Theorem C66_reg_columns srt srt' prior h d sigma tau t0 t :
  reg_setting srt prior h d -> sorts Rleb srt' -> column_perm (ts_dim d) sigma tau ->
  reg_fit srt (mkHyper (h_pp h) (h_prior h) (h_delta h) false (h_prec h)) d = Ok t0 ->
  every_node d t0 (no_rival (h_pp h) (h_prec h) ng_logev default_ng d) ->
  reg_fit srt h d = Ok t ->
  reg_fit srt' h (permute_columns sigma d) = Ok (renumber tau t) /\
  forall Xq m, reg_predict (renumber tau t) (permute_X sigma Xq) m = reg_predict t Xq m.
Proof. exact (reg_cols srt srt' prior h d sigma tau t0 t). Qed.
Print Assumptions C66_reg_columns.
(** With two equally good columns the answers depend on their order. *)
Theorem C66_ties_refuted : exists srt k prior h d sigma tau t t' (Xq : nat -> nat -> R),
  clf_setting srt k prior h d /\ column_perm (ts_dim d) sigma tau /\
  clf_fit srt h d = Ok t /\ clf_fit srt h (permute_columns sigma d) = Ok t' /\
  clf_predict t Xq 1 = [0%R] /\ clf_predict t' (permute_X sigma Xq) 1 = [1%R].
Proof. exact twin_query. Qed.
Print Assumptions C66_ties_refuted.
Example C66_case : exists t, clf_setting sort_R 2 (map IZR [1;1]%Z) (hyp (9 # 10) [1;1]%Z 0 false 0) (real_set ex_const) /\
  clf_fit sort_R (hyp (9 # 10) [1;1]%Z 0 false 0) (real_set ex_const) = Ok t /\ height t = 2 /\
  column_perm (ts_dim (real_set ex_const)) swap01 swap01 /\
  every_node (real_set ex_const) t (no_rival (h_pp (hyp (9 # 10) [1;1]%Z 0 false 0)) (h_prec (hyp (9 # 10) [1;1]%Z 0 false 0))
    clf_ev (clf_dflt (ts_dim (real_set ex_const))) (real_set ex_const)).
Proof. exact no_rival_case. Qed.
