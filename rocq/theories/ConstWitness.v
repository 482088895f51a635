(** * ConstWitness: constant targets whose models are not constant. *)
From Coq Require Import QArith Qreals Reals Lra Permutation.
From Coq Require String.
From Verif Require Import Prelude Lists Tree Perp Gamma RealOps Clf Reg Api Spec FitProofs PruneProofs PredictProofs OptSpec OptProofs
  OptFit ClfSpec ClfProofs RegSpec RegProofs ApiSpec ApiProofs Equiv Exec Witness RegWitness.
Local Open Scope nat_scope.

(** Three rows: the first one has feature value 0, the others 1; all targets are 1. *)
Definition one_X (i f : nat) : R := if i <? 1 then 0%R else 1%R.
Section OnePoint.
Import String.
Open Scope string_scope.
Definition one_set : tset R R := mkSet 3 1 one_X (fun _ => 1%R) ["x"].
End OnePoint.
Lemma one_set_ok : tset_ok one_set.
Proof. unfold tset_ok, one_set. simpl. split; [lia|]. split; [vm_compute; discriminate|lia]. Qed.
Lemma one_left rows : left_rows Rleb one_X 0 0%R rows = filter (fun i => i <? 1) rows.
Proof. apply filter_ext. intros i. unfold one_X. destruct (i <? 1); [apply Rleb_true|apply Rleb_false]; lra. Qed.
Lemma one_right rows : right_rows Rleb one_X 0 0%R rows = filter (fun i => negb (i <? 1)) rows.
Proof. apply filter_ext. intros i. f_equal. unfold one_X. destruct (i <? 1); [apply Rleb_true|apply Rleb_false]; lra. Qed.
Lemma one_cut f a b : f < 1 -> is_cut Rleb (gap_R 0) one_X f [0; 1; 2] a b <-> (a = 0 /\ b = 1)%R.
Proof.
  intros Hf. assert (f = 0) as -> by lia. unfold is_cut, value_of, gap_R. rewrite Rleb_false, Rgtb_true. split.
  - intros ((i & Hi & <-) & (j & Hj & <-) & H & _). unfold one_X in *. destruct (i <? 1), (j <? 1); lra.
  - intros (-> & ->). repeat split; try lra.
    + exists 0. simpl. auto.
    + exists 2. simpl. auto.
    + intros i _. rewrite !Rleb_true. unfold one_X. destruct (i <? 1); lra.
Qed.
Lemma one_n_cuts m : n_cuts Rleb (gap_R 0) one_X 0 [0; 1; 2] m <-> m = 1.
Proof.
  split.
  - intros (cs & Hn & <- & H). assert (Hp : Permutation cs [(0, 1)%R]).
    { apply NoDup_Permutation; auto. { repeat constructor. intros []. }
      intros [a b]. rewrite H, one_cut by lia. simpl. split.
      - intros [-> ->]. auto.
      - intros [E|[]]. injection E as <- <-. auto. }
    apply Permutation_length in Hp. auto.
  - intros ->. exists [(0, 1)%R]. split; [repeat constructor; intros []|]. split; [reflexivity|]. intros a b. split.
    + intros [E|[]]. injection E as <- <-. apply one_cut; auto; lra.
    + intros Hc. apply one_cut in Hc as [-> ->]; simpl; auto.
Qed.

Lemma gammaln_5_2 : gammaln (5 / 2) = (gammaln (3 / 2) + ln (3 / 2))%R.
Proof. replace (5 / 2)%R with (3 / 2 + 1)%R by lra. rewrite gammaln_succ by lra. lra. Qed.
Ltac ev_simpl := unfold ng_logev, ng_update, ssd, mean, vsum, p1; cbn [length map fold_right ng_mu ng_kappa ng_alpha ng_beta].
Lemma one_ev1 : ng_logev p1 [1%R] = (gammaln (3 / 2) - 3 / 2 * ln (5 / 4) - ln 2 / 2 - ln (2 * PI) / 2)%R.
Proof.
  ev_simpl. replace (INR 1) with 1%R by (simpl; lra). replace (1 + 1 * 1 / 2)%R with (3 / 2)%R by lra. replace (1 + 1 * 1)%R with 2%R by lra.
  match goal with |- context [ln (1 + ?a + ?b)] => replace (1 + a + b)%R with (5 / 4)%R by field end. rewrite gammaln_1, ln_1. lra.
Qed.
Lemma one_ev3 : ng_logev p1 [1; 1; 1]%R = (gammaln (3 / 2) + ln (3 / 2) - 5 / 2 * ln (11 / 8) - ln 4 / 2 - 3 / 2 * ln (2 * PI))%R.
Proof.
  ev_simpl. replace (INR 3) with 3%R by (simpl; lra). replace (1 + 3 * 1 / 2)%R with (5 / 2)%R by lra. replace (1 + 3 * 1)%R with 4%R by lra.
  match goal with |- context [ln (1 + ?a + ?b)] => replace (1 + a + b)%R with (11 / 8)%R by field end. rewrite gammaln_5_2, gammaln_1, ln_1. lra.
Qed.
Lemma one_gain : (ln ((9 / 10) ^ 1 / (1 * 1)) + ng_logev p1 [1] + ng_logev p1 [1; 1] > ln (1 - (9 / 10) ^ 1) + ng_logev p1 [1; 1; 1])%R.
Proof.
  rewrite ev2, one_ev1, one_ev3. replace ((9 / 10) ^ 1 / (1 * 1))%R with (9 * / 10)%R by field. replace (1 - (9 / 10) ^ 1)%R with (/ 10)%R by field.
  rewrite ln_mult by lra. replace (1 + 1 ^ 2 / 3)%R with (4 / 3)%R by field.
  assert (2 * ln (3 / 2) + 3 * ln (5 / 4) + ln 2 + 4 * ln (4 / 3) + ln 3 < 2 * ln 9 + 5 * ln (11 / 8) + ln 4)%R as H.
  { replace (2 * ln (3 / 2))%R with (ln (3 / 2 * (3 / 2)))%R by (rewrite !ln_mult by lra; lra).
    replace (3 * ln (5 / 4))%R with (ln (5 / 4 * (5 / 4) * (5 / 4)))%R by (rewrite !ln_mult by lra; lra).
    replace (4 * ln (4 / 3))%R with (ln (4 / 3 * (4 / 3) * (4 / 3) * (4 / 3)))%R by (rewrite !ln_mult by lra; lra).
    replace (2 * ln 9)%R with (ln (9 * 9))%R by (rewrite !ln_mult by lra; lra).
    replace (5 * ln (11 / 8))%R with (ln (11 / 8 * (11 / 8) * (11 / 8) * (11 / 8) * (11 / 8)))%R by (rewrite !ln_mult by lra; lra).
    rewrite <- !ln_mult by lra. apply ln_increasing; lra. }
  lra.
Qed.

Lemma one_fit : reg_setting sort_R p1 (half_h false) one_set /\
  exists i0 s a b l r, reg_fit sort_R (half_h false) one_set = Ok (Split i0 s a b (Leaf l) (Leaf r)) /\
    s = mkDesc 0 (nth 0 (ts_names one_set) (sd_name s)) (/ 2)%R /\
    i_post l = ng_update 1 p1 [1%R] /\ i_post r = ng_update 1 p1 [1; 1]%R.
Proof.
  assert (Hset : reg_setting sort_R p1 (half_h false) one_set).
  { split; [apply sort_R_sorts|]. split; [apply half_h_ok|]. split; [apply one_set_ok|]. split; [reflexivity|]. exact p1_ok. }
  split; auto.
  destruct (reg_fit_opt sort_R p1 (half_h false) one_set Hset) as (t & t0 & E & Ho & Et & _).
  cbn in Et. subst t0. rewrite E. cbn [half_h h_pp h_delta h_prec h_prior] in Ho.
  set (T := reg_tgt (9 / 10) 0) in *. set (y := fun _ : nat => 1%R).
  assert (Hcand : forall f a b v, cand Rleb (gap_R 0) T one_X y 1 0 p1 [0; 1; 2] f a b v ->
     f = 0 /\ a = 0%R /\ b = 1%R /\ v = (ln ((9 / 10) ^ 1 / (1 * 1)) + ng_logev p1 [1] + ng_logev p1 [1; 1])%R).
  { intros f a b v (Hf & Hc & m & Hm & ->). apply one_cut in Hc as [-> ->]; auto. assert (f = 0) as -> by lia.
    apply one_n_cuts in Hm as ->. rewrite one_left, one_right. auto. }
  assert (Ho2 : opt Rleb (gap_R 0) mid_R T one_X y (ts_names one_set) 1 0 (Some p1) [0; 1; 2]
    (Split (node_info T y 1 0 (Some p1) p1 [0; 1; 2])
      (mkDesc 0 (nth 0 (ts_names one_set) (sd_name (mkDesc 0 String.EmptyString 0%R))) (mid_R 0 1))
      (t_stop T 0 p1 (map y [0; 1; 2])) (ln ((9 / 10) ^ 1 / (1 * 1)) + ng_logev p1 [1] + ng_logev p1 [1; 1])%R
      (Leaf (mkInfo (Some (t_child_prior T p1 (map y [0]))) (0 + 1) 1 None (t_post T p1 (map y [0]))))
      (Leaf (mkInfo (Some (t_child_prior T p1 (map y [1; 2]))) (0 + 1) 2 None (t_post T p1 (map y [1; 2])))))).
  { eapply opt_split with (a := 0%R) (b := 1%R).
    - reflexivity.
    - split; [lia|]. split; [apply one_cut; auto|]. exists 1. split; [apply one_n_cuts; auto|].
      rewrite one_left, one_right. reflexivity.
    - exact one_gain.
    - intros f' a' b' v' Hc. apply Hcand in Hc as (-> & -> & -> & ->). split; [apply Rlt_irrefl|].
      intros _. right. split; auto. apply Rleb_true. lra.
    - reflexivity.
    - rewrite one_left. apply opt_child_leaf with (rows := [0]). right. intros (u & v & Hu & Hv & N).
      unfold y in Hu, Hv. simpl in Hu, Hv. intuition congruence.
    - rewrite one_right. apply opt_child_leaf with (rows := [1; 2]). right. intros (u & v & Hu & Hv & N).
      unfold y in Hu, Hv. simpl in Hu, Hv. intuition congruence. }
  pose proof (proj1 (opt_functional Rleb (gap_R 0) mid_R (feat_R 0 sort_R) T one_X y (ts_names one_set)
          (feat_R_law 0 sort_R (Rle_refl 0) sort_R_sorts) 1) _ _ _ _ Ho _ Ho2) as ->.
  do 6 eexists. split; [reflexivity|]. split; [|repeat split; reflexivity].
  simpl. unfold mid_R. f_equal. lra.
Qed.

(** The pruned tree predicts 1/2 for the feature value 0 and 2/3 for the feature value 1. *)
Lemma reg_const_changes : exists srt prior h d t Xq,
  reg_setting srt prior h d /\ h_prune h = true /\ h_delta h = 0%R /\ (forall i, ts_y d i = 1%R) /\
  reg_fit srt h d = Ok t /\ reg_predict t Xq 2 = [(1 / 2)%R; (2 / 3)%R].
Proof.
  destruct one_fit as (Hs & i0 & s & a & b & l & r & E & Es & El & Er).
  exists sort_R, p1, (half_h true), one_set, (Split i0 s a b (Leaf l) (Leaf r)), (fun i _ => if i =? 0 then 0%R else 1%R).
  split; [exact Hs|]. split; [reflexivity|]. split; [reflexivity|]. split; [reflexivity|]. split.
  - pose proof (reg_fit_prune_eq (half_h false) _ _ E) as H. unfold half_h in *. cbn [h_pp h_prior h_delta h_prune h_prec] in H. rewrite H. f_equal.
    cbn [prune_bu]. replace (reg_same l r) with false; auto.
    symmetry. apply Reqb_false. unfold reg_predict_leaf. rewrite El, Er, ng_mu_pair. ev_simpl. simpl INR. lra.
  - unfold reg_predict. rewrite !predict_rows_spec. cbn [seq map lookup].
    unfold goes_left, goes_right. rewrite Es. cbn [sd_val sd_dim Nat.eqb].
    replace (Rltb 0 (/ 2)) with true by (symmetry; apply Rltb_true; lra).
    replace (Rltb 1 (/ 2)) with false by (symmetry; apply Rltb_false; lra).
    replace (Rgeb 0 (/ 2)) with false by (symmetry; apply Rgeb_false; lra).
    replace (Rgeb 1 (/ 2)) with true by (symmetry; apply Rgeb_true; lra).
    unfold reg_predict_leaf. rewrite El, Er, ng_mu_pair. replace ((1 + 1) / 3)%R with (2 / 3)%R by lra.
    assert (ng_mu (ng_update 1 p1 [1%R]) = (1 / 2)%R) as ->; [ev_simpl; simpl INR; lra|reflexivity].
Qed.

(** ** Classification: all targets are 0, and the fitted tree predicts class 1 for some queries *)
Section Strings.
Import String.
Open Scope string_scope.
Definition ex_pure : tset Z nat := zset [[0];[1];[1];[1];[1]]%Z [0;0;0;0;0] ["x"].
End Strings.
Lemma clf_const_changes : exists srt k prior h d t Xq,
  clf_setting srt k prior h d /\ h_prune h = true /\ h_delta h = 0%R /\ (forall i, i < ts_n d -> ts_y d i = 0%R) /\
  clf_fit srt h d = Ok t /\ clf_predict t Xq 2 = [1%R; 0%R].
Proof.
  pose (h := hyp (9 # 10) [1;3]%Z 0 true 0). exists sort_R, 2, (map IZR [1;3]%Z), h, (real_set ex_pure).
  destruct (exec_fit (9 # 10) 0 0 true [1;3]%Z ex_pure) as [v|e] eqn:E; [|vm_compute in E; discriminate].
  destruct (exec_run 2 (9 # 10) 0 0 true [1;3]%Z ex_pure v) with (srt := sort_R) as (Hs & t & Ht & Hr);
    auto using sort_R_sorts; try lia; [split; reflexivity|].
  exists t, (qX (fun i _ => if i =? 0 then 0%Z else 1%Z)). split; [exact Hs|]. split; [reflexivity|]. split; [simpl; lra|]. split.
  { intros i Hi. simpl in Hi. do 5 (destruct i as [|i]; [reflexivity|]). lia. }
  split; [exact Ht|]. rewrite (clf_predict_exec _ _ _ _ Hr). vm_compute in E. injection E as <-. reflexivity.
Qed.
