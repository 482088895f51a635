(** * RegWitness: a concrete fitted regression tree, and pruning that changes regression predictions. *)
From Coq Require Import Permutation.
From Coq Require String.
From Verif Require Import Prelude Lists Tree Perp Gamma RealOps Reg Api Spec FitProofs PruneProofs PredictProofs OptSpec OptProofs
  OptFit ClfSpec ClfProofs RegSpec RegProofs ApiSpec ApiProofs Equiv Exec Witness.
Local Open Scope nat_scope.

(** Four rows: the first two have feature value 0, the last two 1. *)
Definition two_X (i f : nat) : R := if i <? 2 then 0%R else 1%R.
Section TwoPoint.
Import String.
Open Scope string_scope.
Definition two_set (y : nat -> R) : tset R R := mkSet 4 1 two_X y ["x"].
End TwoPoint.

Lemma two_set_ok y : tset_ok (two_set y).
Proof. unfold tset_ok, two_set. simpl. split; [lia|]. split; [vm_compute; discriminate|lia]. Qed.

Lemma two_left rows : left_rows Rleb two_X 0 0%R rows = filter (fun i => i <? 2) rows.
Proof.
  apply filter_ext. intros i. unfold two_X. destruct (i <? 2).
  - apply Rleb_true. lra.
  - apply Rleb_false. lra.
Qed.
Lemma two_right rows : right_rows Rleb two_X 0 0%R rows = filter (fun i => negb (i <? 2)) rows.
Proof.
  apply filter_ext. intros i. f_equal. unfold two_X. destruct (i <? 2).
  - apply Rleb_true. lra.
  - apply Rleb_false. lra.
Qed.

Lemma two_cut f a b : f < 1 -> is_cut Rleb (gap_R 0) two_X f [0; 1; 2; 3] a b <-> (a = 0 /\ b = 1)%R.
Proof.
  intros Hf. assert (f = 0) as -> by lia. unfold is_cut, value_of, gap_R. rewrite Rleb_false, Rgtb_true. split.
  - intros ((i & Hi & <-) & (j & Hj & <-) & H & _). unfold two_X in *.
    destruct (i <? 2), (j <? 2); lra.
  - intros (-> & ->). repeat split; try lra.
    + exists 0. simpl. auto.
    + exists 2. simpl. auto.
    + intros i _. rewrite !Rleb_true. unfold two_X. destruct (i <? 2); lra.
Qed.
Lemma two_n_cuts m : n_cuts Rleb (gap_R 0) two_X 0 [0; 1; 2; 3] m <-> m = 1.
Proof.
  split.
  - intros (cs & Hn & <- & H). assert (Hp : Permutation cs [(0, 1)%R]).
    { apply NoDup_Permutation; auto. { repeat constructor. intros []. }
      intros [a b]. rewrite H, two_cut by lia. simpl. split.
      - intros [-> ->]. auto.
      - intros [E|[]]. injection E as <- <-. auto. }
    apply Permutation_length in Hp. auto.
  - intros ->. exists [(0, 1)%R]. split; [repeat constructor; intros []|]. split; [reflexivity|]. intros a b. split.
    + intros [E|[]]. injection E as <- <-. apply two_cut; auto; lra.
    + intros Hc. apply two_cut in Hc as [-> ->]; simpl; auto.
Qed.

(** If the only cut beats not splitting and the halves have constant targets, the fit is one split. *)
Lemma two_fit (h : hyper ng) prior y0 y1 : h_prior h = Some prior -> h_prec h = 0%R -> h_prune h = false -> hyper_ok h -> reg_pok prior ->
  let y := fun i : nat => if i <? 2 then y0 else y1 in
  (ln (h_pp h ^ 1 / (1 * 1)) + ng_logev prior [y0; y0] + ng_logev prior [y1; y1]
     > ln (1 - h_pp h ^ 1) + ng_logev prior [y0; y0; y1; y1])%R ->
  reg_setting sort_R prior h (two_set y) /\
  exists i0 s a b l r, reg_fit sort_R h (two_set y) = Ok (Split i0 s a b (Leaf l) (Leaf r)) /\
    s = mkDesc 0 (nth 0 (ts_names (two_set y)) (sd_name s)) (/ 2)%R /\
    i_post i0 = ng_update 1 prior [y0; y0; y1; y1] /\
    i_post l = ng_update 1 prior [y0; y0] /\ i_post r = ng_update 1 prior [y1; y1].
Proof.
  intros Hp H0 Hpr Hh Hok y Hgt.
  assert (Hset : reg_setting sort_R prior h (two_set y)).
  { split; [apply sort_R_sorts|]. split; auto. split; [apply two_set_ok|]. split; [rewrite Hp; auto|]. exact Hok. }
  split; auto.
  destruct (reg_fit_opt sort_R prior h (two_set y) Hset) as (t & t0 & E & Ho & Et & _).
  rewrite Hpr in Et. subst t0. rewrite E.
  set (T := reg_tgt (h_pp h) (h_delta h)) in *.
  assert (Hcand : forall f a b v, cand Rleb (gap_R 0) T two_X y 1 0 prior [0; 1; 2; 3] f a b v ->
     f = 0 /\ a = 0%R /\ b = 1%R /\ v = (ln (h_pp h ^ 1 / (1 * 1)) + ng_logev prior [y0; y0] + ng_logev prior [y1; y1])%R).
  { intros f a b v (Hf & Hc & m & Hm & ->). apply two_cut in Hc as [-> ->]; auto. assert (f = 0) as -> by lia.
    apply two_n_cuts in Hm as ->. rewrite two_left, two_right. auto. }
  assert (Ho2 : opt Rleb (gap_R 0) mid_R T two_X y (ts_names (two_set y)) 1 0 (Some prior) [0; 1; 2; 3]
    (Split (node_info T y 1 0 (Some prior) prior [0; 1; 2; 3])
      (mkDesc 0 (nth 0 (ts_names (two_set y)) (sd_name (mkDesc 0 String.EmptyString 0%R))) (mid_R 0 1))
      (t_stop T 0 prior (map y [0; 1; 2; 3])) (ln (h_pp h ^ 1 / (1 * 1)) + ng_logev prior [y0; y0] + ng_logev prior [y1; y1])%R
      (Leaf (mkInfo (Some (t_child_prior T prior (map y [0; 1]))) (0 + 1) 2 None (t_post T prior (map y [0; 1]))))
      (Leaf (mkInfo (Some (t_child_prior T prior (map y [2; 3]))) (0 + 1) 2 None (t_post T prior (map y [2; 3])))))).
  { eapply opt_split with (a := 0%R) (b := 1%R).
    - reflexivity.
    - split; [lia|]. split; [apply two_cut; auto|]. exists 1. split; [apply two_n_cuts; auto|].
      rewrite two_left, two_right. reflexivity.
    - exact Hgt.
    - intros f' a' b' v' Hc. apply Hcand in Hc as (-> & -> & -> & ->). split; [apply Rlt_irrefl|].
      intros _. right. split; auto. apply Rleb_true. lra.
    - reflexivity.
    - rewrite two_left. apply opt_child_leaf with (rows := [0; 1]). right. intros (u & v & Hu & Hv & N).
      unfold y in Hu, Hv. simpl in Hu, Hv. intuition congruence.
    - rewrite two_right. apply opt_child_leaf with (rows := [2; 3]). right. intros (u & v & Hu & Hv & N).
      unfold y in Hu, Hv. simpl in Hu, Hv. intuition congruence. }
  rewrite Hp, H0 in Ho.
  pose proof (proj1 (opt_functional Rleb (gap_R 0) mid_R (feat_R 0 sort_R) T two_X y (ts_names (two_set y))
          (feat_R_law 0 sort_R (Rle_refl 0) sort_R_sorts) 1) _ _ _ _ Ho _ Ho2) as ->.
  do 6 eexists. split; [reflexivity|]. split; [|repeat split; reflexivity].
  simpl. unfold mid_R. f_equal. lra.
Qed.

(** Evidences with an integer prior (alpha = beta = kappa = 1, mu = 0). *)
Definition p1 : ng := mkNG 0 1 1 1.
Lemma p1_ok : reg_pok p1.
Proof. unfold reg_pok, p1. simpl. lra. Qed.
Lemma gammaln_2 : gammaln 2 = 0%R.
Proof. replace 2%R with (1 + 1)%R by lra. rewrite gammaln_succ by lra. rewrite gammaln_1, ln_1. lra. Qed.
Lemma gammaln_3 : gammaln 3 = ln 2.
Proof. replace 3%R with (2 + 1)%R by lra. rewrite gammaln_succ by lra. rewrite gammaln_2. lra. Qed.

Lemma ev2 u : ng_logev p1 [u; u] = (- 2 * ln (1 + u ^ 2 / 3) - ln 3 / 2 - ln (2 * PI))%R.
Proof.
  unfold ng_logev, ng_update, ssd, mean, vsum, p1. cbn [length map fold_right ng_mu ng_kappa ng_alpha ng_beta].
  replace (INR 2) with 2%R by (simpl; lra).
  replace (1 + 2 * 1 / 2)%R with 2%R by lra. replace (1 + 2 * 1)%R with 3%R by lra.
  replace (1 + 1 * ((u - (u + (u + 0)) / 2) ^ 2 + ((u - (u + (u + 0)) / 2) ^ 2 + 0)) / 2 +
      1 * (1 * 2 * ((u + (u + 0)) / 2 - 0) ^ 2) / (2 * (1 + 2)))%R with (1 + u ^ 2 / 3)%R by field.
  rewrite gammaln_2, gammaln_1, ln_1. lra.
Qed.
Lemma ev4 u v : ng_logev p1 [u; u; v; v] =
  (ln 2 - 3 * ln (1 + (u - v) ^ 2 / 2 + (u + v) ^ 2 / 10) - ln 5 / 2 - 2 * ln (2 * PI))%R.
Proof.
  unfold ng_logev, ng_update, ssd, mean, vsum, p1. cbn [length map fold_right ng_mu ng_kappa ng_alpha ng_beta].
  replace (INR 4) with 4%R by (simpl; lra).
  replace (1 + 4 * 1 / 2)%R with 3%R by lra. replace (1 + 4 * 1)%R with 5%R by lra.
  match goal with |- context [ln (1 + ?a + ?b)] =>
    replace (1 + a + b)%R with (1 + (u - v) ^ 2 / 2 + (u + v) ^ 2 / 10)%R by field end.
  rewrite gammaln_3, gammaln_1, ln_1. lra.
Qed.

Definition half_h (prn : bool) : hyper ng := mkHyper (9 / 10) (Some p1) 0 prn 0.
Lemma half_h_ok prn : hyper_ok (half_h prn).
Proof. unfold hyper_ok, half_h. simpl. lra. Qed.

Lemma ln_sq a : (0 < a)%R -> (2 * ln a = ln (a * a))%R.
Proof. intros H. rewrite ln_mult by auto. lra. Qed.

(** Targets 3, 3, 3, 3: the split is accepted. *)
Lemma merge_gain :
  (ln ((9 / 10) ^ 1 / (1 * 1)) + ng_logev p1 [3; 3] + ng_logev p1 [3; 3]
     > ln (1 - (9 / 10) ^ 1) + ng_logev p1 [3; 3; 3; 3])%R.
Proof.
  rewrite !ev2, !ev4.
  replace ((9 / 10) ^ 1 / (1 * 1))%R with (9 * / 10)%R by field. replace (1 - (9 / 10) ^ 1)%R with (/ 10)%R by field.
  replace (1 + 3 ^ 2 / 3)%R with 4%R by field.
  replace (1 + (3 - 3) ^ 2 / 2 + (3 + 3) ^ 2 / 10)%R with (23 / 5)%R by field.
  rewrite ln_mult by lra.
  assert (H : (ln 2 + 4 * ln 4 + ln 3 < ln 9 + 3 * ln (23 / 5) + ln 5 / 2)%R).
  { replace (4 * ln 4)%R with (ln (4 * 4 * 4 * 4))%R by (rewrite !ln_mult by lra; lra).
    replace (3 * ln (23 / 5))%R with (ln (23 / 5 * (23 / 5) * (23 / 5)))%R by (rewrite !ln_mult by lra; lra).
    assert (H5 : (ln 2.2 < ln 5 / 2)%R).
    { apply (Rmult_lt_reg_l 2); [lra|]. rewrite ln_sq by lra. replace (2 * (ln 5 / 2))%R with (ln 5) by lra.
      apply ln_increasing; lra. }
    rewrite <- !ln_mult by lra.
    apply Rlt_trans with (ln (9 * (23 / 5 * (23 / 5) * (23 / 5)) * 2.2))%R.
    - apply ln_increasing; lra.
    - rewrite (ln_mult (9 * _)) by lra. lra. }
  lra.
Qed.
(** Targets 0, 0, 3, 3. *)
Lemma step_gain :
  (ln ((9 / 10) ^ 1 / (1 * 1)) + ng_logev p1 [0; 0] + ng_logev p1 [3; 3]
     > ln (1 - (9 / 10) ^ 1) + ng_logev p1 [0; 0; 3; 3])%R.
Proof.
  rewrite !ev2, !ev4.
  replace ((9 / 10) ^ 1 / (1 * 1))%R with (9 * / 10)%R by field. replace (1 - (9 / 10) ^ 1)%R with (/ 10)%R by field.
  replace (1 + 3 ^ 2 / 3)%R with 4%R by field. replace (1 + 0 ^ 2 / 3)%R with 1%R by field.
  replace (1 + (0 - 3) ^ 2 / 2 + (0 + 3) ^ 2 / 10)%R with (32 / 5)%R by field.
  rewrite ln_mult, ln_1 by lra.
  assert (H : (ln 2 + 2 * ln 4 + ln 3 < ln 9 + 3 * ln (32 / 5) + ln 5 / 2)%R).
  { replace (2 * ln 4)%R with (ln (4 * 4))%R by (rewrite !ln_mult by lra; lra).
    replace (3 * ln (32 / 5))%R with (ln (32 / 5 * (32 / 5) * (32 / 5)))%R by (rewrite !ln_mult by lra; lra).
    assert (H5 : (0 < ln 5)%R) by (rewrite <- ln_1; apply ln_increasing; lra).
    rewrite <- !ln_mult by lra.
    apply Rlt_le_trans with (ln (9 * (32 / 5 * (32 / 5) * (32 / 5))))%R; [apply ln_increasing; lra|lra]. }
  lra.
Qed.

(** ** Example: a fitted regression tree with one split, both unpruned and pruned *)
Definition step_set : tset R R := two_set (fun i => if i <? 2 then 0%R else 3%R).
Definition flat_set : tset R R := two_set (fun i => if i <? 2 then 3%R else 3%R).

Lemma reg_fit_prune_eq (h : hyper ng) d t : reg_fit sort_R (mkHyper (h_pp h) (h_prior h) (h_delta h) false (h_prec h)) d = Ok t ->
  reg_fit sort_R (mkHyper (h_pp h) (h_prior h) (h_delta h) true (h_prec h)) d = Ok (prune_bu reg_same t).
Proof.
  unfold reg_fit, perp_fit. cbn [h_pp h_prior h_delta h_prune h_prec]. destruct (pfit_root _ _ _ _ _ _ _ _ _) as [t0|]; simpl; [|discriminate].
  intros E. injection E as ->. apply prune_correct.
Qed.

Lemma ng_mu_pair a b : ng_mu (ng_update 1 p1 [a; b]) = ((a + b) / 3)%R.
Proof. unfold ng_update, mean, vsum, p1. cbn [length map fold_right ng_mu ng_kappa]. replace (INR 2) with 2%R by (simpl; lra). field. Qed.

Lemma step_fit prn : reg_setting sort_R p1 (half_h prn) step_set /\
  exists t, reg_fit sort_R (half_h prn) step_set = Ok t /\ height t = 1 /\ length (leaves t) = 2.
Proof.
  destruct (two_fit (half_h false) p1 0 3 eq_refl eq_refl eq_refl (half_h_ok false) p1_ok step_gain)
    as (Hs & i0 & s & a & b & l & r & E & _ & _ & El & Er).
  split; [exact Hs|]. destruct prn.
  - exists (Split i0 s a b (Leaf l) (Leaf r)). split; [|simpl; auto].
    pose proof (reg_fit_prune_eq (half_h false) _ _ E) as H. unfold half_h in *. cbn [h_pp h_prior h_delta h_prune h_prec] in H.
    unfold step_set. rewrite H. f_equal. cbn [prune_bu]. replace (reg_same l r) with false; auto.
    symmetry. apply Reqb_false. unfold reg_predict_leaf. rewrite El, Er.
    rewrite !ng_mu_pair. lra.
  - exists (Split i0 s a b (Leaf l) (Leaf r)). split; [exact E|simpl; auto].
Qed.

(** Pruning changes regression predictions although the merged children predict the same (C17). *)
Lemma reg_prune_changes : exists srt prior h d t t' Xq,
  reg_setting srt prior h d /\ h_delta h = 0%R /\
  reg_fit srt (mkHyper (h_pp h) (h_prior h) (h_delta h) false (h_prec h)) d = Ok t /\
  reg_fit srt (mkHyper (h_pp h) (h_prior h) (h_delta h) true (h_prec h)) d = Ok t' /\
  reg_predict t Xq 1 = [2%R] /\ reg_predict t' Xq 1 = [(12 / 5)%R].
Proof.
  destruct (two_fit (half_h false) p1 3 3 eq_refl eq_refl eq_refl (half_h_ok false) p1_ok merge_gain)
    as (Hs & i0 & s & a & b & l & r & E & Es & E0 & El & Er).
  exists sort_R, p1, (half_h false), flat_set, (Split i0 s a b (Leaf l) (Leaf r)), (Leaf i0), (fun _ _ => 0%R).
  split; [exact Hs|]. split; [reflexivity|]. split; [exact E|]. split.
  - pose proof (reg_fit_prune_eq (half_h false) _ _ E) as H. unfold flat_set. rewrite H. f_equal.
    cbn [prune_bu]. replace (reg_same l r) with true; auto.
    symmetry. apply Reqb_true. unfold reg_predict_leaf. rewrite El, Er. auto.
  - unfold reg_predict. rewrite !predict_rows_spec. cbn [seq map lookup].
    unfold goes_left, goes_right. rewrite Es. cbn [sd_val sd_dim].
    replace (Rltb 0 (/ 2)) with true by (symmetry; apply Rltb_true; lra).
    replace (Rgeb 0 (/ 2)) with false by (symmetry; apply Rgeb_false; lra).
    unfold reg_predict_leaf. rewrite El, E0. split; f_equal.
    + rewrite ng_mu_pair. lra.
    + unfold ng_update, mean, vsum, p1. cbn [length map fold_right ng_mu ng_kappa].
      replace (INR 4) with 4%R by (simpl; lra). field.
Qed.
