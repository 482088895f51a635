(** * Properties of regression targets that are not numbers: C67. *)
From Coq Require Import Reals.
From Verif Require Import Prelude Tree Perp RealOps Reg Api Hyper Spec ApiSpec Validate Nonfinite NonfiniteSpec.
From Verif Require Import Exec Witness RegWitness NonfiniteProofs NonfiniteLemmas.
Local Open Scope nat_scope.

(** ** C67: one missing or infinite target in any position, for every setting *)
Theorem C67_one_bad_target srt h d i : permutes srt -> tset_ok d -> i < ts_n d -> ~ number (ts_y d i) ->
  exists l v, xreg_fit srt h d = Ok (Leaf l) /\ ~ number v /\ ((exists j, j < ts_n d /\ ts_y d j = NaN) -> v = NaN) /\
    forall Xq m, xreg_predict (Leaf l) Xq m = repeat v m.
Proof. exact (xreg_poison srt h d i). Qed.
Print Assumptions C67_one_bad_target.
Theorem C67_one_bad_target_hyper {C} (pre : C -> list R) srt cands h d i : permutes srt -> i < hs_n d -> ~ number (hs_y d i) ->
  exists l v, xhreg_fit pre srt cands h d = Ok (Leaf l) /\ ~ number v /\ ((exists j, j < hs_n d /\ hs_y d j = NaN) -> v = NaN) /\
    forall Xq m, xhreg_predict (Leaf l) Xq m = repeat v m.
Proof. exact (xhreg_poison pre srt cands h d i). Qed.
Print Assumptions C67_one_bad_target_hyper.
(** Three good targets and a missing one: accepted, and no query gets a number. *)
Theorem C67_finite_answers_refuted : exists srt h d t, permutes srt /\ hyper_ok h /\ tset_ok d /\
  (forall i, i < 3 -> number (ts_y d i)) /\ xreg_fit srt h d = Ok t /\ forall Xq m, xreg_predict t Xq m = repeat NaN m.
Proof. exact poison_witness. Qed.
Print Assumptions C67_finite_answers_refuted.
(** The regression check sees only the shape of the target; the classification check refuses NaN. *)
Theorem C67_accepted y y' : a_shape y = a_shape y' -> reg_check_target y = reg_check_target y'.
Proof. exact (reg_check_shape y y'). Qed.
Print Assumptions C67_accepted.
Theorem C67_clf_refused {P} n_classes (prior : option P) (y : arr fl) :
  (forall p, 0 < n_classes p) -> In None (a_data y) -> exists e, clf_check_target n_classes prior y = Err e.
Proof. exact (clf_check_nan n_classes prior y). Qed.
Print Assumptions C67_clf_refused.
(** With numbers only, the special values play no role. *)
Theorem C67_numbers srt h d : xreg_fit srt h (as_floats d) = map_res (map_tree finite_ng Fin) (reg_fit srt h d).
Proof. exact (xreg_finite srt h d). Qed.
Print Assumptions C67_numbers.
Theorem C67_numbers_hyper {C} (pre : C -> list R) srt cands h d :
  xhreg_fit pre srt cands h (as_hfloats d) = map_res (map_tree finite_ng Fin) (hreg_fit pre srt cands h d).
Proof. exact (xhreg_finite pre srt cands h d). Qed.
Print Assumptions C67_numbers_hyper.
(** A tree with two leaves becomes one leaf when one of its four targets is missing. *)
Example C67_case prn : let d := as_floats step_set in let d' := poisoned 3 NaN d in
  (exists t, xreg_fit sort_R (half_h prn) d = Ok t /\ length (leaves t) = 2) /\
  permutes sort_R /\ tset_ok d' /\ 3 < ts_n d' /\ ~ number (ts_y d' 3) /\
  exists l, xreg_fit sort_R (half_h prn) d' = Ok (Leaf l).
Proof. apply poison_case. intros [r E]. discriminate. Qed.
Example C67_refused_case : In None (a_data (mkArr [3] F64 [Some 0%R; None; Some 1%R])).
Proof. right. left. reflexivity. Qed.
