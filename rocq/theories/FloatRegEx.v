(** * FloatRegEx: a regression problem on which the float64 decisions are clear. *)
From Coq Require Import Reals Lra Permutation Psatz Sorted String.
From Flocq Require Import Core BinarySingleNaN.
From Verif Require Import Prelude Lists Tree Perp RealOps Gamma Reg Api Spec PruneProofs PredictProofs FitProofs OptSpec OptProofs OptFit OptNodes Exec
  ApiSpec ApiProofs ClfSpec ClfProofs RegSpec RegProofs SplitFacts NodeFacts Routing FloatFeat FloatProofs NumApi FloatReg FloatSum FloatNG Witness NumWitness FloatWitness
  FloatClfSum FloatClfErr FloatOracle StableFit StableEx FloatRegErr FloatRegScore FloatRegFit.
Local Open Scope R_scope.

(** Rows 1 and 2 with the targets -2 and 2. *)
Definition pm_set : tset float64 float64 := mkSet 2 1 (ts_X label_set) (fun i => if Nat.eqb i 0 then f_int (-2) else f_int 2) (ts_names label_set).
Definition two_pi : float64 := f_of_R (2 * PI).

Lemma PI_low : 3 < PI <= 7 / 2.
Proof.
  split; [pose proof PI2_3_2; lra|]. destruct (PI_ineq 1) as [_ H]. unfold tg_alt, PI_tg in H. simpl in H. lra.
Qed.
Lemma two_pi_ok : is_finite two_pi = true /\ Rabs (B2R two_pi - 2 * PI) <= 8 * u53.
Proof.
  pose proof PI_low. assert (A8 : Rabs (2 * PI) <= 7) by (rewrite Rabs_pos_eq; lra).
  destruct (f_of_R_ok (2 * PI)) as [F E]; [apply Rle_trans with (b2 3); [change (b2 3) with 8; lra|apply b2_le; lia]|].
  split; [exact F|]. unfold two_pi. rewrite E. eapply Rle_trans; [apply RN64_err|].
  assert (b2 (-1075) <= u53) by (apply b2_le; lia). pose proof upos. assert (u53 * Rabs (2 * PI) <= u53 * 7) by (apply Rmult_le_compat_l; lra). lra.
Qed.

(** The values of [gammaln] at 1/2 and 3/2. *)
Lemma gam_half : gammaln (/ 2 + 1) = gammaln (/ 2) + ln (/ 2) /\ gammaln (/ 2 + 1) <= 0 /\ 0 <= gammaln (/ 2) <= ln 2.
Proof.
  pose proof (gammaln_succ (/ 2) ltac:(lra)) as E1. split; [exact E1|].
  assert (E2 : gammaln (1 + 1) = 0) by (rewrite gammaln_succ, gammaln_1, ln_1 by lra; lra).
  pose proof (gammaln_convex 1 (1 + 1) (/ 2) ltac:(lra) ltac:(lra) ltac:(lra)) as C1. rewrite gammaln_1, E2 in C1.
  match type of C1 with gammaln ?a <= _ => replace a with (/ 2 + 1) in C1 by lra end.
  pose proof (gammaln_convex (/ 2) (/ 2 + 1) (/ 2) ltac:(lra) ltac:(lra) ltac:(lra)) as C2.
  match type of C2 with gammaln ?a <= _ => replace a with 1 in C2 by lra end. rewrite gammaln_1 in C2.
  rewrite ln_Rinv in E1 by lra. pose proof ln_lt_2. split; [lra|]. lra.
Qed.
Lemma ln2_1 : ln 2 <= 1.
Proof. pose proof (ln_le_1 2 ltac:(lra)). lra. Qed.

Notation pm_prior := (freg_get_prior None 2 1).
Lemma pm_prior_val : ng_val pm_prior = mkNG 0 1 (1 / 2) (1 / 2).
Proof. destruct (default_values 2 1 eq_refl) as [-> _]. reflexivity. Qed.
Lemma pm_fields : B2R (fn_kappa pm_prior) = 1 /\ B2R (fn_alpha pm_prior) = 1 / 2 /\ B2R (fn_beta pm_prior) = 1 / 2.
Proof. pose proof pm_prior_val as H. unfold ng_val in H. injection H as H1 H2 H3. auto. Qed.

Lemma pm_gam : gammaln_halves gammaln_cr (B2R (fn_alpha pm_prior)) 2 (b2 (-52)) 1.
Proof.
  intros m a Hm Fa Ea. destruct pm_fields as (_ & EA & _). rewrite EA in *.
  destruct gam_half as (G1 & G2 & G3). pose proof ln2_1. pose proof ln_lt_2.
  rewrite ln_Rinv in G1 by lra.
  assert (Ex : B2R a = 1 / 2 + INR m / 2).
  { rewrite Ea. apply RN64_fmt. replace (1 / 2 + INR m / 2) with (IZR (Z.of_nat (1 + m)) * b2 (-1)).
    - apply fmt64_scaled; lia.
    - rewrite <- INR_IZR_INZ, plus_INR. change (b2 (-1)) with (/ 2). change (INR 1) with 1. field. }
  assert (Gb : Rabs (gammaln (1 / 2 + INR m / 2)) <= 1).
  { destruct m as [|[|[|m]]]; [| | |lia].
    - replace (1 / 2 + INR 0 / 2) with (/ 2) by (simpl; lra). apply Rabs_le. lra.
    - replace (1 / 2 + INR 1 / 2) with 1 by (simpl; lra). rewrite gammaln_1, Rabs_R0. lra.
    - replace (1 / 2 + INR 2 / 2) with (/ 2 + 1) by (simpl; lra). apply Rabs_le. lra. }
  unfold gammaln_cr. rewrite Ex. destruct (f_of_R_err (gammaln (1 / 2 + INR m / 2)) 0) as (F1 & F2 & F3); [lia|exact Gb|].
  split; [exact F1|]. split; [exact F2|exact F3].
Qed.

Definition pm_el : R := b2 (-41) + 2 * 0 + 4 * u53.
Definition pm_tau : R := reg_tau pm_el (b2 (-41)) (b2 (-52)) 1 2 2 pm_prior.
Lemma pm_rb : 0 <= reg_rb 2 2 pm_prior <= / 1000000.
Proof.
  destruct pm_fields as (EK & _ & EB). unfold reg_rb, reg_w. rewrite EK, EB, u53_val. simpl (INR 2). lra.
Qed.
Lemma pm_tau_small : 0 <= pm_tau <= / 1000.
Proof.
  destruct pm_fields as (_ & EA & _). pose proof pm_rb. unfold pm_tau, reg_tau, reg_A, pm_el. rewrite EA, u53_val. simpl (INR 2).
  change (b2 (-41)) with (/ 2199023255552). change (b2 (-52)) with (/ 4503599627370496). lra.
Qed.
Lemma pm_setting : reg64_setting f_sum log_cr gammaln_cr pow_cr two_pi f_half f_zero 3 pm_prior 2 pm_el (b2 (-41)) (b2 (-52)) 1 pm_set.
Proof.
  constructor; cbn [pm_set ts_n ts_dim].
  - destruct label_ok as (H & _). exact H.
  - reflexivity.
  - apply f_sum_sum.
  - change (b2 20) with 1048576. simpl (INR 2). lra.
  - split; [lra|]. change 2 with (b2 1). apply b2_le. lia.
  - apply (default_values 2 1 eq_refl). lra.
  - intros i Hi. cbn [ts_y]. destruct (int_ok (-2)) as [F1 E1]; [reflexivity|]. destruct (int_ok 2) as [F2 E2]; [reflexivity|].
    unfold sized, pm_set. cbn [ts_y]. destruct (Nat.eqb i 0); [rewrite E1|rewrite E2]; (split; [assumption|]); apply Rabs_le; lra.
  - pose proof pm_rb. lra.
  - apply (two_logs 2 eq_refl).
  - split; [exact log_cr_accurate|]. change 1 with (b2 0). apply b2_le. lia.
  - split; [exact pm_gam|]. change 1 with (b2 0) at 1. apply b2_le. lia.
  - exact two_pi_ok.
Qed.

(** ** The exact problem *)
Definition pm_exact : tset R R := reg_exact_set pm_set (fun i c => B2R (ts_X pm_set i c)).
Definition pm_h : hyper ng := mkHyper (B2R f_half) None 0 false 0.
Lemma pm_real : reg_setting (argsort_by Rleb) (ng_val pm_prior) pm_h pm_exact.
Proof.
  destruct half_ok as [_ E]. split; [apply sort_R_sorts|]. split; [unfold hyper_ok; cbn [pm_h h_pp h_delta h_prec]; rewrite E; lra|].
  split; [destruct label_ok as (H & _); exact H|]. split; [apply (default_values 2 1 eq_refl)|]. rewrite pm_prior_val. unfold reg_pok. simpl. lra.
Qed.
Lemma pm_y i : ts_y pm_exact i = if Nat.eqb i 0 then -2 else 2.
Proof.
  cbn [pm_exact reg_exact_set ts_y pm_set]. destruct (int_ok (-2)) as [_ E1]; [reflexivity|]. destruct (int_ok 2) as [_ E2]; [reflexivity|]. destruct (Nat.eqb i 0); assumption.
Qed.
Lemma pm_X i c : ts_X pm_exact i c = if Nat.eqb i 0 then 1 else 2.
Proof. exact (two_X i c). Qed.
Notation pm_ev := (ng_logev (ng_val pm_prior)).
Lemma pm_joint : pm_ev [-2; 2] = ln (/ 2) + / 2 * ln (/ 2) - 3 / 2 * ln (9 / 2) - / 2 * ln 3 - ln (2 * PI).
Proof.
  rewrite pm_prior_val. unfold ng_logev, ng_update, ssd, mean. cbn [ng_mu ng_kappa ng_alpha ng_beta length map]. unfold vsum. cbn [fold_right].
  replace (INR 2) with 2 by (simpl; lra). destruct gam_half as (G1 & _).
  replace (1 / 2 + 2 * 1 / 2) with (/ 2 + 1) by lra. rewrite G1. replace (1 / 2) with (/ 2) by lra.
  replace (1 + 2 * 1) with 3 by lra. rewrite ln_1.
  match goal with |- context [ln (/ 2 + ?a + ?b)] => replace (/ 2 + a + b) with (9 / 2) by lra end. lra.
Qed.
Lemma pm_single y : y = -2 \/ y = 2 -> pm_ev [y] = - gammaln (/ 2) + / 2 * ln (/ 2) - ln (3 / 2) - / 2 * ln 2 - / 2 * ln (2 * PI).
Proof.
  intros Hy. rewrite pm_prior_val. unfold ng_logev, ng_update, ssd, mean. cbn [ng_mu ng_kappa ng_alpha ng_beta length map]. unfold vsum. cbn [fold_right].
  change (INR 1) with 1.
  replace (1 / 2 + 1 * 1 / 2) with 1 by lra. rewrite gammaln_1. replace (1 / 2) with (/ 2) by lra.
  replace (1 + 1 * 1) with 2 by lra. rewrite ln_1.
  match goal with |- context [ln (/ 2 + ?a + ?b)] => replace (/ 2 + a + b) with (3 / 2) by (destruct Hy as [-> | ->]; lra) end. lra.
Qed.
Definition pm_stop : R := ln (/ 2) + (ln (/ 2) + / 2 * ln (/ 2) - 3 / 2 * ln (9 / 2) - / 2 * ln 3 - ln (2 * PI)).
Definition pm_cut : R := ln (/ 2) + (- gammaln (/ 2) + / 2 * ln (/ 2) - ln (3 / 2) - / 2 * ln 2 - / 2 * ln (2 * PI)) + (- gammaln (/ 2) + / 2 * ln (/ 2) - ln (3 / 2) - / 2 * ln 2 - / 2 * ln (2 * PI)).
Lemma pm_margin : pm_stop + / 10 <= pm_cut.
Proof.
  unfold pm_stop, pm_cut. destruct gam_half as (_ & _ & G3).
  replace (ln (9 / 2)) with (2 * ln 3 - ln 2) by (unfold Rdiv; rewrite ln_mult, ln_Rinv by lra; replace 9 with (3 * 3) by lra; rewrite ln_mult by lra; lra).
  replace (ln (3 / 2)) with (ln 3 - ln 2) by (unfold Rdiv; rewrite ln_mult, ln_Rinv by lra; lra).
  rewrite ln_Rinv by lra.
  pose proof (ln_ge_1sub_inv (27 / 16) ltac:(lra)) as H.
  replace (ln (27 / 16)) with (3 * ln 3 - 4 * ln 2) in H.
  2:{ unfold Rdiv. rewrite ln_mult, ln_Rinv by lra. replace 27 with (3 * 3 * 3) by lra. replace 16 with (2 * 2 * 2 * 2) by lra. rewrite !ln_mult by lra. lra. }
  lra.
Qed.
Lemma pm_stop_val : stop_value (B2R f_half) pm_ev 0 pm_exact [0; 1]%nat = pm_stop.
Proof.
  unfold stop_value, targets. cbn [map]. rewrite !pm_y. cbn [Nat.eqb]. rewrite pm_joint. destruct half_ok as [_ E]. rewrite E. unfold pm_stop. do 2 f_equal. simpl. lra.
Qed.
Lemma pm_split f a b v : split_value (B2R f_half) 0 pm_ev 0 pm_exact [0; 1]%nat f a b v <-> f = 0%nat /\ a = 1 /\ b = 2 /\ v = pm_cut.
Proof.
  assert (Ha : forall f a b, admissible 0 pm_exact f [0; 1]%nat a b <-> a = 1 /\ b = 2) by exact two_admissible.
  assert (Hn : forall f m, n_admissible 0 pm_exact f [0; 1]%nat m <-> m = 1%nat) by exact two_count.
  unfold split_value. rewrite Ha. change (ts_dim pm_exact) with 1%nat.
  assert (Ev : ln (B2R f_half ^ (1 + 0) / (INR 1 * INR 1)) + pm_ev (targets pm_exact (filter (fun i => Rleb (ts_X pm_exact i 0%nat) 1) [0; 1]%nat)) +
     pm_ev (targets pm_exact (filter (fun i => Rltb 1 (ts_X pm_exact i 0%nat)) [0; 1]%nat)) = pm_cut).
  { cbn [filter]. rewrite !pm_X. cbn [Nat.eqb].
    replace (Rleb 1 1) with true by (symmetry; apply Rleb_true; lra). replace (Rleb 2 1) with false by (symmetry; apply Rleb_false; lra).
    replace (Rltb 1 1) with false by (symmetry; apply Rltb_false; lra). replace (Rltb 1 2) with true by (symmetry; apply Rltb_true; lra).
    unfold targets. cbn [map]. rewrite !pm_y. cbn [Nat.eqb]. rewrite !pm_single by auto. destruct half_ok as [_ E]. rewrite E. unfold pm_cut. do 3 f_equal. simpl. lra. }
  split.
  - intros (Hf & [-> ->] & m & Hm & ->). apply Hn in Hm. subst m. assert (f = 0%nat) as -> by lia. repeat split; auto.
  - intros (-> & -> & -> & ->). split; [lia|]. split; [auto|]. exists 1%nat. split; [apply Hn; reflexivity|]. symmetry. exact Ev.
Qed.
Lemma pm_clear : exists te, reg_fit (argsort_by Rleb) pm_h pm_exact = Ok te /\
  every_node pm_exact te (clear_node (B2R f_half) 0 pm_ev pm_tau 3 pm_exact) /\
  exists i d a b c1 c2, te = Split i d a b c1 c2.
Proof.
  destruct (reg_fit_opt _ _ _ _ pm_real) as (te & t0 & E & Ho & Et & _). cbn [h_prune pm_h] in Et. subst t0.
  exists te. split; [exact E|]. cbn [pm_h h_prec h_pp h_delta h_prior] in Ho.
  pose proof pm_tau_small as Ht. pose proof pm_margin as Hm.
  assert (Hpr0 : t_prior (reg_tgt (B2R f_half) 0) None (length (all_rows pm_exact)) (ts_dim pm_exact) = ng_val pm_prior) by (symmetry; apply (default_values 2 1 eq_refl)).
  assert (CV : forall f a b v, cand Rleb (gap_R 0) (reg_tgt (B2R f_half) 0) (ts_X pm_exact) (ts_y pm_exact) (ts_dim pm_exact) 0 (ng_val pm_prior) (all_rows pm_exact) f a b v <->
     f = 0%nat /\ a = 1 /\ b = 2 /\ v = pm_cut).
  { intros f a b v. rewrite <- pm_split. exact (cand_value (reg_tgt (B2R f_half) 0) (B2R f_half) 0 ng_logev pm_exact (reg_scored _ _) 0 (ng_val pm_prior) [0; 1]%nat f a b v). }
  pose proof pm_stop_val as Hst. unfold stop_value in Hst.
  inversion Ho as [? ? ? pr Hpr Hno|? ? ? pr f a b s nm c1 c2 Hpr Hcd Hg Hmax Hnm H1 H2]; subst; rewrite Hpr0 in *.
  - exfalso. apply (Hno 0%nat 1 2 pm_cut); [apply CV; auto|]. cbn [t_stop reg_tgt t_gt]. change (map (ts_y pm_exact) (all_rows pm_exact)) with (targets pm_exact [0; 1]%nat). rewrite Hst. lra.
  - apply CV in Hcd. destruct Hcd as (-> & -> & -> & ->).
    split; [|do 6 eexists; reflexivity].
    split.
    + cbn [clear_node]. cbn [node_info i_level]. split; [lia|]. split.
      { cbn [t_stop reg_tgt]. change (map (ts_y pm_exact) (all_rows pm_exact)) with (targets pm_exact [0; 1]%nat). rewrite Hst. lra. }
      exists 1, 2. split; [unfold mid_R; cbn; lra|]. split; [apply pm_split; auto|].
      intros f' a' b' v' Hv' Hne. apply pm_split in Hv'. destruct Hv' as (-> & -> & -> & ->). exfalso. apply Hne. reflexivity.
    + assert (HL : forall c rows rows', opt_child Rleb (gap_R 0) mid_R (reg_tgt (B2R f_half) 0) (ts_X pm_exact) (ts_y pm_exact) (ts_names pm_exact) (ts_dim pm_exact) 0 (ng_val pm_prior) rows c ->
        (length rows <= 1)%nat -> nodes_ok (goes_left (ts_X pm_exact)) (goes_right (ts_X pm_exact)) (clear_node (B2R f_half) 0 pm_ev pm_tau 3 pm_exact) rows' c).
      { intros c rows rows' Hc Hl. inversion Hc; subst; [lia|]. split; [|exact I]. cbn [clear_node i_level i_n_dim]. split; [lia|left; reflexivity]. }
      split; eapply HL; try eassumption; unfold left_rows, right_rows; change (all_rows pm_exact) with [0; 1]%nat; cbn [filter]; rewrite !pm_X; cbn [Nat.eqb].
      * replace (Rleb 1 1) with true by (symmetry; apply Rleb_true; lra). replace (Rleb 2 1) with false by (symmetry; apply Rleb_false; lra). simpl; lia.
      * replace (Rleb 1 1) with true by (symmetry; apply Rleb_true; lra). replace (Rleb 2 1) with false by (symmetry; apply Rleb_false; lra). simpl; lia.
Qed.
