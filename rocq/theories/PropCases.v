(** * PropCases: concrete cases that meet the hypotheses of the property theorems. *)
From Coq Require Import QArith Qreals Permutation Sorted.
From Verif Require Import Prelude Lists Tree Perp RealOps Clf Reg Api Spec OptProofs ClfSpec ClfProofs RegSpec ApiSpec ApiProofs
  Exec Witness RegWitness.
Local Open Scope nat_scope.

Lemma sorts_permutes srt : sorts Rleb srt -> permutes srt.
Proof. intros H key n. apply H. Qed.
Lemma ex1_generic : permutes (f_argsort (feat_R 0 sort_R)) /\ tset_ok (real_set ex1) /\ ts_n (real_set ex1) = 9.
Proof.
  split; [apply (sorts_permutes sort_R), sort_R_sorts|]. split; [|reflexivity].
  destruct (ex1_fit false) as [(_ & _ & H & _) _]. exact H.
Qed.
Lemma ex1_full prn : clf_setting sort_R 3 (map IZR [1; 1; 1]%Z) (ex1_h prn) (real_set ex1) /\ h_delta (ex1_h prn) = 0%R /\
  exists t, clf_fit sort_R (ex1_h prn) (real_set ex1) = Ok t /\ height t = 2 /\ length (leaves t) = 3.
Proof. destruct (ex1_fit prn) as [A B]. split; [exact A|]. split; [reflexivity|exact B]. Qed.
Lemma ex_delta_full prn : clf_setting sort_R 2 (map IZR [1; 1]%Z) (ex_delta_h prn) (real_set ex_delta) /\ h_delta (ex_delta_h prn) = 1%R /\
  exists t, clf_fit sort_R (ex_delta_h prn) (real_set ex_delta) = Ok t /\ height t = 1 /\ length (leaves t) = 2.
Proof. destruct (ex_delta_fit prn) as [A B]. split; [exact A|]. split; [reflexivity|exact B]. Qed.
Lemma step_full prn : reg_setting sort_R p1 (half_h prn) step_set /\ h_delta (half_h prn) = 0%R /\ h_prior (half_h prn) = Some p1 /\
  exists t, reg_fit sort_R (half_h prn) step_set = Ok t /\ height t = 1 /\ length (leaves t) = 2.
Proof. destruct (step_fit prn) as [A B]. split; [exact A|]. split; [reflexivity|]. split; [reflexivity|exact B]. Qed.
Lemma conj_case : (0 < ng_kappa p1)%R /\ (0 < ng_alpha p1)%R /\ (0 < ng_beta p1)%R /\ ng_mu (ng_update 1 p1 [3; 3]%R) = 2%R.
Proof. split; [|split; [|split]]; [simpl; lra..|]. rewrite ng_mu_pair. lra. Qed.
Lemma hull_case : (0 <= ng_mu p1 <= 3)%R /\ forall i, i < ts_n step_set -> (0 <= ts_y step_set i <= 3)%R.
Proof. split; [simpl; lra|]. intros i _. unfold step_set, two_set. simpl. destruct (i <? 2); lra. Qed.
Lemma swap_case : clf_setting sort_R 2 (map IZR [1; 1]%Z) (hyp (9 # 10) [1; 1]%Z 0 true 0) (real_set ex_swap) /\
  (forall c, c < 2 -> nth c (map IZR [1; 1]%Z) 0%R = 1%R) /\
  exists t t', clf_fit sort_R (hyp (9 # 10) [1; 1]%Z 0 false 0) (real_set ex_swap) = Ok t /\
    clf_fit sort_R (hyp (9 # 10) [1; 1]%Z 0 true 0) (real_set ex_swap) = Ok t' /\ length (leaves t) = 2 /\ length (leaves t') = 1.
Proof.
  destruct (exec_fit (9 # 10) 0 0 true [1;1]%Z ex_swap) as [v|e] eqn:E; [|vm_compute in E; discriminate].
  destruct (exec_fit (9 # 10) 0 0 false [1;1]%Z ex_swap) as [v'|e] eqn:E'; [|vm_compute in E'; discriminate].
  destruct (exec_run 2 (9 # 10) 0 0 true [1;1]%Z ex_swap v) with (srt := sort_R) as (Hs & t & Ht & Hr);
    auto using sort_R_sorts; try lia; [split; reflexivity|].
  destruct (exec_run 2 (9 # 10) 0 0 false [1;1]%Z ex_swap v') with (srt := sort_R) as (Hs' & t' & Ht' & Hr');
    auto using sort_R_sorts; try lia; [split; reflexivity|].
  split; [exact Hs|]. split.
  { intros c Hc. destruct c as [|[|c]]; [reflexivity|reflexivity|lia]. }
  exists t', t. split; [exact Ht'|]. split; [exact Ht|].
  destruct (shape_drop _ _ Hr) as [_ ->]. destruct (shape_drop _ _ Hr') as [_ ->].
  vm_compute in E. injection E as <-. vm_compute in E'. injection E' as <-. split; reflexivity.
Qed.
Lemma reverse_case : reordering (ts_n (real_set ex1)) (fun i => 8 - i).
Proof.
  unfold reordering. change (ts_n (real_set ex1)) with 9. change (map (fun i => 8 - i) (seq 0 9)) with (rev (seq 0 9)).
  symmetry. apply Permutation_rev.
Qed.
Lemma label_IZR k : label (INR k) = k.
Proof. apply label_INR. Qed.
Lemma evidence_case : clf_pok 3 [1; 2; 1]%R /\ Forall (clf_yok 3) [0; 1; 1; 2]%R /\ dm_prob [1; 2; 1]%R [0; 1; 1; 2]%R = (1 / 140)%R /\ reg_pok p1.
Proof.
  assert (H0 : 0%R = INR 0) by reflexivity. assert (H1 : 1%R = INR 1) by reflexivity. assert (H2 : 2%R = INR 2) by (simpl; lra).
  split; [split; [reflexivity|repeat constructor; lra]|]. split.
  { repeat constructor; [exists 0|exists 1|exists 1|exists 2]; auto. }
  split; [|exact p1_ok].
  unfold dm_prob. cbn [seq_prob app]. unfold predictive.
  assert (L0 : label 0 = 0) by (rewrite H0; apply label_INR). assert (L1 : label 1 = 1) by (rewrite H1; apply label_INR).
  assert (L2 : label 2 = 2) by (rewrite H2; apply label_INR).
  rewrite L0, L1, L2. unfold count_label. cbn [filter app]. rewrite L0, L1. cbn. field.
Qed.
Lemma positions_case : StronglySorted lt [1; 3] /\ (forall k, In k [1; 3] -> 1 <= k < length [0; 1; 1; 2]%R) /\
  (forall k, In k [1; 2; 3] -> 1 <= k < length [0; 1; 1; 2]%R).
Proof.
  split; [repeat constructor|]. simpl. split; intros k Hk; lia.
Qed.
Lemma bits_case : (N.of_nat 3 <= 2 ^ 64)%N /\ index_bits 65535 = 16%N /\ index_bits 65536 = 32%N.
Proof. split; [vm_compute; discriminate|]. split; reflexivity. Qed.
Lemma rotate_case : class_perm 3 (fun c => (c + 1) mod 3) /\
  permuted 3 (fun c => (c + 1) mod 3) (map IZR [1; 1; 1]%Z) (map IZR [1; 1; 1]%Z).
Proof.
  split.
  - split.
    + intros c _. apply Nat.mod_upper_bound. lia.
    + intros c c' Hc Hc'. destruct c as [|[|[|c]]], c' as [|[|[|c']]]; try lia; simpl; intros; lia.
  - split; [reflexivity|]. split; [reflexivity|]. intros c Hc. destruct c as [|[|[|c]]]; [reflexivity..|lia].
Qed.
Lemma scale_case prn : clf_setting sort_R 3 (map IZR [1; 1; 1]%Z) (ex1_h prn) (real_set ex1) /\ h_prec (ex1_h prn) = 0%R /\
  reg_setting sort_R p1 (half_h prn) step_set /\ h_prec (half_h prn) = 0%R /\ forall f, (0 < INR (S f))%R.
Proof.
  split; [apply (ex1_fit prn)|]. split; [reflexivity|]. split; [apply (step_full prn)|]. split; [reflexivity|].
  intros f. apply lt_0_INR. lia.
Qed.
Lemma target_case prn : (0 < 10)%R /\ reg_setting sort_R p1 (half_h prn) step_set /\ h_prior (half_h prn) = Some p1 /\ sorts Rleb sort_R /\
  scale_ng 10 3 p1 = mkNG (affine 10 3 (ng_mu p1)) (ng_kappa p1) (ng_alpha p1) (100 * ng_beta p1).
Proof.
  split; [lra|]. split; [apply (step_full prn)|]. split; [reflexivity|]. split; [exact sort_R_sorts|].
  unfold scale_ng, affine. f_equal; lra.
Qed.
