(** * FloatImpEx: a fit that meets the conditions of the importance theorems, and the importance of a single leaf. *)
From Coq Require Import Reals Lra Permutation Sorted String.
From Flocq Require Import Core BinarySingleNaN.
From Verif Require Import Prelude Lists Tree Perp RealOps Gamma Clf Reg Api Spec PredictProofs OptProofs Exec
  ApiSpec ApiProofs ClfSpec ClfProofs RegSpec RegProofs Importance ImportanceSpec FloatFeat FloatProofs NumApi FloatReg FloatSum FloatNG FloatClf FloatClfSum Witness NumWitness FloatWitness
  FloatClfErr FloatOracle StableFit StableEx FloatRegFit FloatRegEx FloatImp FloatImpSpec FloatImpProofs FloatImpFit.
From Verif Require Import Prelude Lists Tree Perp RealOps Gamma Reg Api Spec PruneProofs PredictProofs FitProofs OptSpec OptProofs OptFit OptNodes Exec   ApiSpec ApiProofs ClfSpec ClfProofs RegSpec RegProofs SplitFacts NodeFacts Routing FloatFeat FloatProofs NumApi FloatReg FloatSum FloatNG Witness NumWitness FloatWitness   FloatClfSum FloatClfErr FloatOracle StableFit StableEx FloatRegErr FloatRegScore FloatRegFit.
Local Open Scope R_scope.

Lemma sum_zero l a : sum_of l a -> Forall (fun x => x = f_zero) l -> a = f_zero.
Proof.
  induction 1 as [|a|l l1 l2 a b Hp H1 IH1 H2 IH2]; intros Hl; [reflexivity|inversion Hl; auto|].
  apply (Permutation_Forall Hp) in Hl. apply Forall_app in Hl as [L1 L2]. rewrite (IH1 L1), (IH2 L2). reflexivity.
Qed.
(** A tree without a split: 0/0. *)
Lemma leaf_importance64 {V P} fsum n_dim (i : ninfo P) : (forall l, sum_of l (fsum l)) -> i_n_dim i = Some n_dim ->
  f_feature_importance fsum (Leaf i : tree (pdesc string V) float64 P) = Ok (repeat B754_nan n_dim).
Proof.
  intros Hs Hd. unfold f_feature_importance. cbn [info]. rewrite Hd. cbn [f_update_importance rbind].
  rewrite (sum_zero (repeat f_zero n_dim) (fsum (repeat f_zero n_dim)) (Hs _)).
  - f_equal. clear. induction n_dim as [|n IH]; [reflexivity|]. cbn [repeat map]. f_equal; auto.
  - apply Forall_forall. intros x Hx. apply repeat_spec in Hx. exact Hx.
Qed.

Lemma two_scores : exists te, clf_fit (argsort_by Rleb) half_h two_exact = Ok te /\
  every_node two_exact te (clear_node (B2R f_half) 0 (clf_ev (map B2R [f_nat 1; f_nat 1])) two_tau 3 two_exact) /\
  splits te <> [] /\ scores_below te /\ two_tau <= b2 898.
Proof.
  destruct two_clear as (te & E & Hc & i & s & a & b & c1 & c2 & Et). exists te. split; [exact E|]. split; [exact Hc|].
  split; [rewrite Et; discriminate|].
  assert (H1 : 1000 <= b2 898) by (apply Rle_trans with (b2 10); [change (b2 10) with 1024; lra|apply b2_le; lia]).
  split; [|pose proof two_tau_small; lra].
  assert (Hex : every_node two_exact te (exact_scores (B2R f_half) (clf_ev (map B2R [f_nat 1; f_nat 1])) 3 two_exact)).
  { exact (clf_exact_scores _ _ _ half_h two_exact te two_tau 3 two_setting eq_refl eq_refl eq_refl E Hc). }
  destruct (fit_splits (feat_R 0 (argsort_by Rleb)) (clf_lik (B2R f_half) 0)) with (same := clf_same) (do_prune := false) (lvl := 0%nat) (pa := Some (map B2R [f_nat 1; f_nat 1])) (d := two_exact) (t := te) as (_ & Hl & _).
  - intros x y z H2 H3. cbn [l_gt clf_lik] in *. apply Rgtb_true in H2. apply Rgtb_true in H3. apply Rgtb_true. lra.
  - intros key m. apply (proj1 (sort_R_sorts key m)).
  - apply two_setting.
  - exact E.
  - change (ts_n two_exact) with 2%nat in Hl. unfold every_node in Hex. rewrite Et in Hl, Hex |- *. destruct Hex as [Hx _]. change (all_rows two_exact) with [0; 1]%nat in Hx.
    cbn [splits length] in Hl. rewrite app_length in Hl.
    assert (L0 : i_level i = 0%nat).
    { pose proof (perp_fit_total (feat_R 0 (argsort_by Rleb)) (clf_lik (B2R f_half) 0) clf_same false 0 (Some (map B2R [f_nat 1; f_nat 1])) two_exact) as HT.
      destruct HT as (t' & E' & _ & HP & _ & Hlv & _); [intros key m; apply (proj1 (sort_R_sorts key m))|apply two_setting|].
      unfold clf_fit in E. cbn [half_h h_prec h_pp h_delta h_prune h_prior] in E. rewrite E in E'. injection E' as <-. rewrite Et in Hlv. exact (proj1 Hlv). }
    cbn [exact_scores] in Hx. rewrite L0 in Hx. destruct Hx as (_ & Ha & (f & x & z & Hb) & _).
    apply two_split in Hb. destruct Hb as (_ & _ & _ & Hb). rewrite two_stop in Ha.
    intros u Hu. cbn [splits] in Hu. destruct Hu as [<-|Hu].
    + cbn [fst snd]. assert (B1 : -11 <= ln (1 / 12) <= 0).
      { split; [pose proof (ln_le_1 12 ltac:(lra)) as H; replace (1 / 12) with (/ 12) by lra; rewrite ln_Rinv by lra; lra|pose proof (ln_le_1 (1 / 12) ltac:(lra)); lra]. }
      assert (B2 : -11 <= ln (1 / 8) <= 0).
      { split; [pose proof (ln_le_1 8 ltac:(lra)) as H; replace (1 / 8) with (/ 8) by lra; rewrite ln_Rinv by lra; lra|pose proof (ln_le_1 (1 / 8) ltac:(lra)); lra]. }
      subst a b. split; apply Rabs_le; lra.
    + apply in_app_iff in Hu. destruct (splits c1), (splits c2); cbn [length In] in *; try lia.
Qed.

Lemma pm_scores : exists te, reg_fit (argsort_by Rleb) pm_h pm_exact = Ok te /\
  every_node pm_exact te (clear_node (B2R f_half) 0 (ng_logev (ng_val pm_prior)) pm_tau 3 pm_exact) /\
  splits te <> [] /\ scores_below te /\ pm_tau <= b2 898.
Proof.
  destruct pm_clear as (te & E & Hc & i & s & a & b & c1 & c2 & Et). exists te. split; [exact E|]. split; [exact Hc|].
  split; [rewrite Et; discriminate|].
  assert (H1 : 1000 <= b2 898) by (apply Rle_trans with (b2 10); [change (b2 10) with 1024; lra|apply b2_le; lia]).
  split; [|pose proof pm_tau_small; lra].
  pose proof (reg_exact_scores _ _ pm_h pm_exact te pm_tau 3 pm_real eq_refl eq_refl eq_refl E Hc) as Hex.
  destruct (fit_splits (feat_R 0 (argsort_by Rleb)) (reg_lik (B2R f_half) 0)) with (same := reg_same) (do_prune := false) (lvl := 0%nat) (pa := @None ng) (d := pm_exact) (t := te) as (_ & Hl & _).
  - intros x y z H2 H3. cbn [l_gt reg_lik] in *. apply Rgtb_true in H2. apply Rgtb_true in H3. apply Rgtb_true. lra.
  - intros key m. apply (proj1 (sort_R_sorts key m)).
  - apply pm_real.
  - exact E.
  - change (ts_n pm_exact) with 2%nat in Hl. unfold every_node in Hex. rewrite Et in Hl, Hex |- *. destruct Hex as [Hx _]. change (all_rows pm_exact) with [0; 1]%nat in Hx.
    cbn [splits length] in Hl. rewrite app_length in Hl.
    assert (L0 : i_level i = 0%nat).
    { pose proof (perp_fit_total (feat_R 0 (argsort_by Rleb)) (reg_lik (B2R f_half) 0) reg_same false 0 None pm_exact) as HT.
      destruct HT as (t' & E' & _ & HP & _ & Hlv & _); [intros key m; apply (proj1 (sort_R_sorts key m))|apply pm_real|].
      unfold reg_fit in E. cbn [pm_h h_prec h_pp h_delta h_prune h_prior] in E. rewrite E in E'. injection E' as <-. rewrite Et in Hlv. exact (proj1 Hlv). }
    cbn [exact_scores] in Hx. rewrite L0 in Hx. destruct Hx as (_ & Ha & (f & x & z & Hb) & _).
    apply pm_split in Hb. destruct Hb as (_ & _ & _ & Hb). cbn [pm_h h_pp] in Ha. rewrite pm_stop_val in Ha.
    intros u Hu. cbn [splits] in Hu. destruct Hu as [<-|Hu].
    + cbn [fst snd]. assert (B : -100 <= pm_stop /\ pm_cut <= 100).
      { unfold pm_stop, pm_cut. destruct gam_half as (_ & _ & G3). pose proof PI_RGT_0. pose proof PI_4.
        pose proof (ln_le_1 2 ltac:(lra)). pose proof (ln_le_1 (9 / 2) ltac:(lra)). pose proof (ln_le_1 3 ltac:(lra)). pose proof (ln_le_1 (2 * PI) ltac:(lra)).
        pose proof (ln_ge_1sub_inv (3 / 2) ltac:(lra)). pose proof (ln_ge_1sub_inv 2 ltac:(lra)). pose proof (ln_ge_1sub_inv (2 * PI) ltac:(lra)) as HP. assert (- 100 <= 1 - / (2 * PI)) by (assert (/ (2 * PI) <= / 1) by (apply Rinv_le_contravar; [lra|pose proof PI2_1; lra]); lra).
        rewrite ln_Rinv by lra. lra. }
      pose proof pm_margin. subst a b. split; apply Rabs_le; lra.
    + apply in_app_iff in Hu. destruct (splits c1), (splits c2); cbn [length In] in *; try lia.
Qed.

Lemma two_finite64 (srt : (nat -> float64) -> nat -> list nat) same : sorts fleb srt -> exists t,
  perp_fit (feat_f f0 srt) (cl64_lik f_sum log_cr gammaln_cr betaln_cr pow_cr f_half f_zero) same false 0 (Some [f_nat 1; f_nat 1]) label_set = Ok t /\
  splits t <> [] /\ scores_finite t.
Proof.
  intros Hs. destruct (two_float srt Hs) as (H1 & H2 & H3 & H4 & H5). destruct two_scores as (te & Ee & Hc & Hne & Hbd & Ht).
  destruct (perp_fit_total (feat_f f0 srt) (cl64_lik f_sum log_cr gammaln_cr betaln_cr pow_cr f_half f_zero) same false 0 (Some [f_nat 1; f_nat 1]) label_set) as (t & E & _);
    [intros key m; apply Hs|apply label_ok|]. exists t. split; [exact E|].
  pose proof (same_float _ _ _ _ _ _ _ _ _ _ _ _ _ _ f0 srt (argsort_by Rleb) label_set H1 Hs H2 H3 H4 H5 two_set half_h te same t two_setting eq_refl eq_refl eq_refl eq_refl Ee Hc E) as Hcopy.
  destruct (near_float _ _ _ _ _ _ _ _ _ _ _ _ _ _ f0 srt (argsort_by Rleb) label_set H1 Hs H2 H3 H4 H5 two_set same false t E) as [Hnear _].
  pose proof (clf_exact_scores _ _ _ half_h two_exact te two_tau 3 two_setting eq_refl eq_refl eq_refl Ee Hc) as Hex.
  pose proof (copy_scores (ts_X label_set) _ _ _ _ two_exact te _ t Hcopy Hex Hnear) as HF.
  split; [|exact (copy_finite te t _ HF Ht Hbd)].
  intros E0. rewrite E0 in HF. inversion HF as [E1|]. congruence.
Qed.
