(** * C90: candidate normals and chosen planes of hyperplane trees in float64. *)
From Coq Require Import Reals Lra Permutation.
From Flocq Require Import Core BinarySingleNaN.
From Verif Require Import Prelude Lists Tree Perp RealOps Api Hyper Spec
  FloatFeat FloatReg FloatSum FloatNG FloatClf FloatClfSum FloatHyper FloatHyperDot FloatHyperFit FloatHyperEx FloatHyperUnit FloatHyperChoice FloatHyperChoiceEx.
Local Open Scope R_scope.

(** The normal of a candidate is close to the exact unit vector; NaN counts as 0, and the zero vector as the first axis. *)
Theorem C90_normal fdot v : blas fdot -> INR (length v) <= b2 20 -> Forall (fun a => is_nan a = true \/ within (b2 400) a) v ->
  (exists x, In x (direction v) /\ b2 (-400) <= Rabs x) ->
  length (f_unit fdot v) = length v /\ forall k, (k < length v)%nat ->
  is_finite (nth k (f_unit fdot v) f_zero) = true /\
  Rabs (B2R (nth k (f_unit fdot v) f_zero) - nth k (direction v) 0 / norm2 (direction v)) <= 8 * INR (length v) * u53.
Proof. exact (fun H => unit_close fdot H v). Qed.
Print Assumptions C90_normal.

(** At every split no candidate offers a higher score, and none with the same score has a larger sum of distances. *)
Theorem C90_clf_chosen {C} fdot fmv fsum flog fgammaln fbetaln fpow pp delta (pre : C -> list float64) prec srt prn lvl pa cands d t :
  hcl64_fit fdot fmv fsum flog fgammaln fbetaln fpow pp delta pre prec srt prn lvl pa cands d = Ok t ->
  nodes_ok (h64_back fdot fmv (hs_X d)) (h64_front fdot fmv (hs_X d))
    (chosen_node fdot fmv fsum pre prec srt (cl64_lik fsum flog fgammaln fbetaln fpow pp delta) (hs_X d) (hs_y d) (hs_dim d) cands) (seq 0 (hs_n d)) t.
Proof. exact (clf64_chosen fdot fmv fsum flog fgammaln fbetaln fpow pp delta pre prec srt prn lvl pa cands d t). Qed.
Print Assumptions C90_clf_chosen.
Theorem C90_reg_chosen {C} fdot fmv fsum flog fgammaln fpow f2pi pp delta (pre : C -> list float64) prec srt prn lvl pa cands d t :
  hreg64_fit fdot fmv fsum flog fgammaln fpow f2pi pp delta pre prec srt prn lvl pa cands d = Ok t ->
  nodes_ok (h64_back fdot fmv (hs_X d)) (h64_front fdot fmv (hs_X d))
    (chosen_node fdot fmv fsum pre prec srt (freg_lik fsum flog fgammaln fpow f2pi pp delta) (hs_X d) (hs_y d) (hs_dim d) cands) (seq 0 (hs_n d)) t.
Proof. exact (reg64_chosen fdot fmv fsum flog fgammaln fpow f2pi pp delta pre prec srt prn lvl pa cands d t). Qed.
Print Assumptions C90_reg_chosen.
(** Every leaf of an unpruned tree has a reason. *)
Theorem C90_clf_leaves {C} fdot fmv fsum flog fgammaln fbetaln fpow pp delta (pre : C -> list float64) prec srt lvl pa cands d t :
  hcl64_fit fdot fmv fsum flog fgammaln fbetaln fpow pp delta pre prec srt false lvl pa cands d = Ok t ->
  nodes_ok (h64_back fdot fmv (hs_X d)) (h64_front fdot fmv (hs_X d))
    (leaf_reason fdot fmv fsum pre prec srt (cl64_lik fsum flog fgammaln fbetaln fpow pp delta) (hs_X d) (hs_y d) (hs_dim d) cands) (seq 0 (hs_n d)) t.
Proof. exact (clf64_leaves fdot fmv fsum flog fgammaln fbetaln fpow pp delta pre prec srt lvl pa cands d t). Qed.
Print Assumptions C90_clf_leaves.
Theorem C90_reg_leaves {C} fdot fmv fsum flog fgammaln fpow f2pi pp delta (pre : C -> list float64) prec srt lvl pa cands d t :
  hreg64_fit fdot fmv fsum flog fgammaln fpow f2pi pp delta pre prec srt false lvl pa cands d = Ok t ->
  nodes_ok (h64_back fdot fmv (hs_X d)) (h64_front fdot fmv (hs_X d))
    (leaf_reason fdot fmv fsum pre prec srt (freg_lik fsum flog fgammaln fpow f2pi pp delta) (hs_X d) (hs_y d) (hs_dim d) cands) (seq 0 (hs_n d)) t.
Proof. exact (reg64_leaves fdot fmv fsum flog fgammaln fpow f2pi pp delta pre prec srt lvl pa cands d t). Qed.
Print Assumptions C90_reg_leaves.
(** So no score of a candidate exceeds that of the chosen plane, if none is NaN. *)
Theorem C90_clf_best {C} fdot fmv fsum flog fgammaln fbetaln fpow pp delta (pre : C -> list float64) prec srt lvl X (y : nat -> float64) n_dim prior rows ns cs pl b :
  best_plane fdot fmv fsum pre prec srt (cl64_lik fsum flog fgammaln fbetaln fpow pp delta) X y n_dim lvl prior rows ns cs pl b ->
  forall c, In c cs -> let ss := scores64 fdot fmv pre prec srt (cl64_lik fsum flog fgammaln fbetaln fpow pp delta) X y n_dim lvl prior rows c in
  Forall (fun s => is_nan s = false) ss -> Forall (fun s => Bltb b s = false) ss.
Proof. exact (clf64_best fdot fmv fsum flog fgammaln fbetaln fpow pp delta pre prec srt lvl X y n_dim prior rows ns cs pl b). Qed.
Print Assumptions C90_clf_best.
Theorem C90_reg_best {C} fdot fmv fsum flog fgammaln fpow f2pi pp delta (pre : C -> list float64) prec srt lvl X (y : nat -> float64) n_dim prior rows ns cs pl b :
  best_plane fdot fmv fsum pre prec srt (freg_lik fsum flog fgammaln fpow f2pi pp delta) X y n_dim lvl prior rows ns cs pl b ->
  forall c, In c cs -> let ss := scores64 fdot fmv pre prec srt (freg_lik fsum flog fgammaln fpow f2pi pp delta) X y n_dim lvl prior rows c in
  Forall (fun s => is_nan s = false) ss -> Forall (fun s => Bltb b s = false) ss.
Proof. exact (reg64_best fdot fmv fsum flog fgammaln fpow f2pi pp delta pre prec srt lvl X y n_dim prior rows ns cs pl b). Qed.
Print Assumptions C90_reg_best.

(** ** Cases *)
Example C90_normal_case : INR (length case_vec) <= b2 20 /\ Forall (fun a => is_nan a = true \/ within (b2 400) a) case_vec /\
  exists x, In x (direction case_vec) /\ b2 (-400) <= Rabs x.
Proof. exact case_normal. Qed.
Example C90_direction_case : direction case_vec = [0; 3; 4] /\ norm2 (direction case_vec) = 5.
Proof. exact case_direction. Qed.
(** Two rows and the candidates NaN and 0: the plane is at one half on the first axis. *)
Example C90_split_case : match pair_fit with
  | Ok (Split _ pl _ _ (Leaf _) (Leaf _)) => forallb (fun a => Beqb a f_one) (p_normal pl) && forallb (fun a => Beqb a f_half) (p_origin pl)
  | _ => false
  end = true.
Proof. exact pair_splits. Qed.
