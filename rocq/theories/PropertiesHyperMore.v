(** * Hyperplane versions of C08, C14-C16, C18, C50, C51, C53 and C64; how the optimizers depend on the objective (C80). *)
From Coq Require Import QArith Qreals Reals.
From Verif Require Import Prelude Tree Perp RealOps Clf Reg Api Importance Hyper Spec OptSpec OptProofs ClfSpec ClfProofs RegSpec RegProofs ApiSpec HyperSpec.
From Verif Require Import Witness RegWitness HyperExec HyperLemmas HyperWitness TrainSpec HyperMoreSpec HyperMore.
From Verif Require Import Sphere Optim OptimLemmas OptimFit OptimWitness NonfiniteSpec OptimShift HyperSim HyperMoreCases.
Local Open Scope nat_scope.

(** ** C08 *)
Theorem C08_hyper_hull {C} (pre : C -> list R) srt cands prior h d t Xq m q lo hi :
  hreg_setting srt prior h d -> hreg_fit pre srt cands h d = Ok t -> q < m ->
  (lo <= ng_mu prior <= hi)%R -> (forall i, i < hs_n d -> (lo <= hs_y d i <= hi)%R) ->
  exists v, nth_error (hreg_predict t Xq m) q = Some v /\ (lo <= v <= hi)%R.
Proof. exact (hreg_hull pre srt cands prior h d t Xq m q lo hi). Qed.
Print Assumptions C08_hyper_hull.
Example C08_hyper_case delta : hreg_setting sort_R p1 (hreg_h delta false) hreg_set /\
  (0 <= ng_mu p1 <= 3)%R /\ (forall i, i < hs_n hreg_set -> (0 <= hs_y hreg_set i <= 3)%R) /\
  exists t, hreg_fit (fun v => v) sort_R (same_cands hreg_cs) (hreg_h delta false) hreg_set = Ok t /\ 1 <= length (splits t).
Proof. exact (conj (hreg_set_ok delta false) (conj (proj1 hhull_case) (conj (proj2 hhull_case) (hreg_fit_split delta)))). Qed.

(** ** C14 *)
Theorem C14_hyper_fit_pruned {W C N O J E Y P S} (G : geo W C N O J E) (L : lik Y P S) post same lvl pa cands (d : hset W Y) t t' :
  hyper_fit G L post same false lvl pa cands d = Ok t -> hyper_fit G L post same true lvl pa cands d = Ok t' ->
  t' = prune_bu same t /\ irreducible same t'.
Proof. exact (hfit_pruned G L post same lvl pa cands d t t'). Qed.
Print Assumptions C14_hyper_fit_pruned.

(** ** C15 *)
Theorem C15_hyper_prune_symmetric {C} (pre : C -> list R) srt cands k prior h d t t' w Xq m : hclf_setting srt k prior h d ->
  (forall c, c < k -> nth c prior 0%R = w) ->
  hclf_fit pre srt cands (mkHyper (h_pp h) (h_prior h) (h_delta h) false (h_prec h)) d = Ok t ->
  hclf_fit pre srt cands (mkHyper (h_pp h) (h_prior h) (h_delta h) true (h_prec h)) d = Ok t' ->
  hclf_predict t' Xq m = hclf_predict t Xq m.
Proof. exact (hclf_prune_same pre srt cands k prior h d t t' w Xq m). Qed.
Print Assumptions C15_hyper_prune_symmetric.
Example C15_hyper_case : hclf_setting sort_R 2 (map IZR [1; 1]%Z) (qhyp (9 # 10) [1; 1]%Z 0 true 0) (hsetR hswap) /\
  (forall c, c < 2 -> nth c (map IZR [1; 1]%Z) 0%R = 1%R) /\
  exists t t', hclf_fit vecR sort_R (same_cands [[1]]%Q) (qhyp (9 # 10) [1; 1]%Z 0 false 0) (hsetR hswap) = Ok t /\
    hclf_fit vecR sort_R (same_cands [[1]]%Q) (qhyp (9 # 10) [1; 1]%Z 0 true 0) (hsetR hswap) = Ok t' /\ length (leaves t) = 2 /\ length (leaves t') = 1.
Proof. exact hswap_case. Qed.

(** ** C16: false of the code *)
Theorem C16_hyper_prune_changes_refuted : exists (cands : list bool -> list (list Q)) pre srt k prior h d t t' Xq,
  hclf_setting srt k prior h d /\
  hclf_fit pre srt cands (mkHyper (h_pp h) (h_prior h) (h_delta h) false (h_prec h)) d = Ok t /\
  hclf_fit pre srt cands (mkHyper (h_pp h) (h_prior h) (h_delta h) true (h_prec h)) d = Ok t' /\
  hclf_predict t Xq 1 = [0%R] /\ hclf_predict t' Xq 1 = [1%R].
Proof. exact hprune_changes. Qed.
Print Assumptions C16_hyper_prune_changes_refuted.

(** ** C18: for every delta, since hyperplane trees do not use it *)
Theorem C18_hyper_additive {C} (pre : C -> list R) srt cands k prior h d t : hclf_setting srt k prior h d -> hclf_fit pre srt cands h d = Ok t ->
  all_nodes (hadditive_node k prior) t.
Proof. exact (hclf_additive pre srt cands k prior h d t). Qed.
Print Assumptions C18_hyper_additive.
Example C18_hyper_case delta prn : hclf_setting sort_R 3 (map IZR [1; 1; 1]%Z) (hx1_h delta prn) (hsetR hx1) /\
  all_spread vecR (same_cands hx1_cs) (h_prec (hx1_h delta prn)) (hsetR hx1) /\
  exists t, hclf_fit vecR sort_R (same_cands hx1_cs) (hx1_h delta prn) (hsetR hx1) = Ok t /\ height t = 2 /\ length (leaves t) = 3.
Proof. destruct (hx1_fit delta prn) as (A & B & _ & t & D & E & F & _). exact (conj A (conj B (ex_intro _ t (conj D (conj E F))))). Qed.

(** ** C50: the candidates do not depend on the target, or are chosen by an optimizer that only sees the objective *)
Theorem C50_hyper_relabel {C} (pre : C -> list R) srt cands k prior prior' h h' d pi t : hclf_setting srt k prior h d ->
  class_perm k pi -> permuted k pi prior prior' -> h_prune h = false ->
  h' = mkHyper (h_pp h) (Some prior') (h_delta h) false (h_prec h) ->
  hclf_fit pre srt cands h d = Ok t ->
  exists t', hclf_fit pre srt cands h' (hmap_target (relabel pi) d) = Ok t' /\ skeleton t' = skeleton t /\
    forall Xq m q p, nth_error (hclf_predict_proba t Xq m) q = Some (Some p) ->
      exists p', nth_error (hclf_predict_proba t' Xq m) q = Some (Some p') /\ permuted k pi p p'.
Proof. exact (hclf_fit_relabel pre srt cands k prior prior' h h' d pi t). Qed.
Print Assumptions C50_hyper_relabel.
Theorem C50_hyper_relabel_optim srt o fuel k prior prior' h h' d pi t : hclf_setting srt k prior h d -> target_blind o ->
  class_perm k pi -> permuted k pi prior prior' -> h_prune h = false ->
  h' = mkHyper (h_pp h) (Some prior') (h_delta h) false (h_prec h) ->
  hclf_fit_opt srt o fuel h d = Ok t ->
  exists t', hclf_fit_opt srt o fuel h' (hmap_target (relabel pi) d) = Ok t' /\ skeleton t' = skeleton t /\
    forall Xq m q p, nth_error (hclf_predict_proba t Xq m) q = Some (Some p) ->
      exists p', nth_error (hclf_predict_proba t' Xq m) q = Some (Some p') /\ permuted k pi p p'.
Proof. exact (hclf_fit_opt_relabel srt o fuel k prior prior' h h' d pi t). Qed.
Print Assumptions C50_hyper_relabel_optim.
Example C50_hyper_case delta prn : target_blind (RandomHyperplane hx1_nrm 3) /\ class_perm 3 (fun c => (c + 1) mod 3) /\
  permuted 3 (fun c => (c + 1) mod 3) (map IZR [1; 1; 1]%Z) (map IZR [1; 1; 1]%Z) /\
  hclf_setting sort_R 3 (map IZR [1; 1; 1]%Z) (hx1_h delta prn) (hsetR hx1) /\
  exists t, (forall fuel, hclf_fit_opt sort_R (RandomHyperplane hx1_nrm 3) fuel (hx1_h delta prn) (hsetR hx1) = Ok t) /\ height t = 2.
Proof. exact (hrelabel_case delta prn). Qed.

(** ** C51 *)
Theorem C51_hyper_target_scale s c {C} (pre : C -> list R) srt cands prior h h' d t : (0 < s)%R -> hreg_setting srt prior h d -> h_prior h = Some prior ->
  h' = mkHyper (h_pp h) (Some (scale_ng s c prior)) (h_delta h) (h_prune h) (h_prec h) ->
  hreg_fit pre srt cands h d = Ok t ->
  exists t', hreg_fit pre srt cands h' (hmap_target (affine s c) d) = Ok t' /\ skeleton t' = skeleton t /\
    forall Xq m, hreg_predict t' Xq m = map (affine s c) (hreg_predict t Xq m).
Proof. exact (hreg_fit_target_scale s c pre srt cands prior h h' d t). Qed.
Print Assumptions C51_hyper_target_scale.
Theorem C51_hyper_target_scale_optim s c srt o fuel prior h h' d t : (0 < s)%R -> hreg_setting srt prior h d -> target_blind o -> h_prior h = Some prior ->
  h' = mkHyper (h_pp h) (Some (scale_ng s c prior)) (h_delta h) (h_prune h) (h_prec h) ->
  hreg_fit_opt srt o fuel h d = Ok t ->
  exists t', hreg_fit_opt srt o fuel h' (hmap_target (affine s c) d) = Ok t' /\ skeleton t' = skeleton t /\
    forall Xq m, hreg_predict t' Xq m = map (affine s c) (hreg_predict t Xq m).
Proof. exact (hreg_fit_opt_target_scale s c srt o fuel prior h h' d t). Qed.
Print Assumptions C51_hyper_target_scale_optim.
Example C51_hyper_case delta prn : (0 < 10)%R /\ hreg_setting sort_R p1 (hreg_h delta prn) hreg_set /\ h_prior (hreg_h delta prn) = Some p1 /\
  target_blind (RandomHyperplane (fun _ => 1%R) 1) /\
  exists bound t, forall fuel, bound <= fuel -> hreg_fit_opt sort_R (RandomHyperplane (fun _ => 1%R) 1) fuel (hreg_h delta prn) hreg_set = Ok t.
Proof. exact (htarget_case delta prn). Qed.

(** ** C53: false of the code *)
Theorem C53_hyper_relabel_prune_refuted : exists (cands : list bool -> list (list Q)) pre srt k prior h d pi t t',
  hclf_setting srt k prior h d /\ h_prune h = true /\ class_perm k pi /\ permuted k pi prior prior /\
  hclf_fit pre srt cands h d = Ok t /\ hclf_fit pre srt cands h (hmap_target (relabel pi) d) = Ok t' /\
  length (leaves t) = 1 /\ length (leaves t') = 2.
Proof. exact hrelabel_prune_changes. Qed.
Print Assumptions C53_hyper_relabel_prune_refuted.

(** ** C64: for candidate normals that separate the rows (see C37) *)
Theorem C64_hyper_clf_total {C} (pre : C -> list R) srt cands k prior h d t : hclf_setting srt k prior h d -> all_spread pre cands (h_prec h) d ->
  hclf_fit pre srt cands h d = Ok t ->
  htotal_gain t = (hlog_odds (h_pp h) d (hrows d) t + vsum (map (clf_ev prior) (hleaf_targets d t)) - clf_ev prior (htargets d (hrows d)))%R.
Proof. exact (hclf_total_gain pre srt cands k prior h d t). Qed.
Print Assumptions C64_hyper_clf_total.
Theorem C64_hyper_reg_total {C} (pre : C -> list R) srt cands prior h d t : hreg_setting srt prior h d -> all_spread pre cands (h_prec h) d ->
  hreg_fit pre srt cands h d = Ok t ->
  htotal_gain t = (hlog_odds (h_pp h) d (hrows d) t + vsum (map (ng_logev prior) (hleaf_targets d t)) - ng_logev prior (htargets d (hrows d)))%R.
Proof. exact (hreg_total_gain pre srt cands prior h d t). Qed.
Print Assumptions C64_hyper_reg_total.

(** ** C80: only the order of the values matters, except to gradient descent, for which their differences do *)
Theorem C80_order g cube vec o n_dim X ys fuel s : (forall a b, (a < b)%R -> (g a < g b)%R) ->
  match o with GradientDescent _ _ _ => False | _ => True end ->
  run_optimizer o (fun p => map_res g (cube p)) (fun p => map_res g (vec p)) n_dim X ys fuel s = run_optimizer o cube vec n_dim X ys fuel s.
Proof. exact (run_order g cube vec o n_dim X ys fuel s). Qed.
Print Assumptions C80_order.
Theorem C80_shift b cube vec o n_dim X ys fuel s :
  run_optimizer o (fun p => map_res (fun v => v + b)%R (cube p)) (fun p => map_res (fun v => v + b)%R (vec p)) n_dim X ys fuel s =
  run_optimizer o cube vec n_dim X ys fuel s.
Proof. exact (run_shift b cube vec o n_dim X ys fuel s). Qed.
Print Assumptions C80_shift.
Theorem C80_descent_scale_refuted : exists g rnd cube n_init n_keep s s',
  (forall a b, (a < b)%R -> (g a < g b)%R) /\ (forall k, (0 <= rnd k < 1)%R) /\
  (forall fuel, 5 <= fuel -> gd_solve rnd cube 1 n_init n_keep fuel start_state = (Ok tt, s)) /\
  (forall fuel, 5 <= fuel -> gd_solve rnd (fun p => map_res g (cube p)) 1 n_init n_keep fuel start_state = (Ok tt, s')) /\
  nth 4 (r_evals s) [] = [0%R] /\ nth 4 (r_evals s') [] = [(1 / 4)%R].
Proof. exact descent_scale. Qed.
Print Assumptions C80_descent_scale_refuted.
(** A strictly increasing, non-linear transformation. *)
Example C80_case : (forall a b, (a < b)%R -> (exp a < exp b)%R) /\
  gd_solve (fun _ => (1 / 2)%R) (jump 1) 1 1 1 5 start_state = (Ok tt, snd (gd_solve (fun _ => (1 / 2)%R) (jump 1) 1 1 1 5 start_state)) /\
  length (r_evals (snd (gd_solve (fun _ => (1 / 2)%R) (jump 1) 1 1 1 5 start_state))) = 7.
Proof. exact jump_case. Qed.
