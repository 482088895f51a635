(** * Properties of models of a constant target: C74. *)
From Coq Require Import Reals Lra.
From Verif Require Import Prelude Tree Perp RealOps Clf Reg Api Hyper Spec OptSpec OptProofs ClfSpec RegSpec ApiSpec HyperSpec ApiProofs HyperLemmas
  Exec Witness RegWitness ConstSpec ConstProofs ConstWitness.
Local Open Scope nat_scope.

(** ** C74 *)
(** If the root is split nevertheless, the prior odds of a split are above the number of cuts. *)
Theorem C74_reg_root srt prior h d t c : reg_setting srt prior h d -> reg_fit srt h d = Ok t ->
  (forall i, i < ts_n d -> ts_y d i = c) -> few_cuts (h_pp h) (h_prec h) d t.
Proof. exact (reg_const_root srt prior h d t c). Qed.
Print Assumptions C74_reg_root.
Theorem C74_clf_root srt k prior h d t c : clf_setting srt k prior h d -> clf_fit srt h d = Ok t ->
  (forall i, i < ts_n d -> ts_y d i = c) -> few_cuts (h_pp h) (h_prec h) d t.
Proof. exact (clf_const_root srt k prior h d t c). Qed.
Print Assumptions C74_clf_root.
(** The tree is a single leaf if the prior odds of a split are at most the number of features. *)
Theorem C74_reg srt prior h d t c : reg_setting srt prior h d -> reg_fit srt h d = Ok t ->
  (forall i, i < ts_n d -> ts_y d i = c) -> (h_pp h <= INR (ts_dim d) * (1 - h_pp h))%R ->
  (exists i, t = Leaf i) /\ forall Xq m, reg_predict t Xq m =
    repeat ((ng_kappa prior * ng_mu prior + INR (ts_n d) * c) / (ng_kappa prior + INR (ts_n d)))%R m.
Proof. exact (reg_const_predict srt prior h d t c). Qed.
Print Assumptions C74_reg.
Theorem C74_clf srt k prior h d t c : clf_setting srt k prior h d -> clf_fit srt h d = Ok t ->
  (forall i, i < ts_n d -> ts_y d i = c) -> (h_pp h <= INR (ts_dim d) * (1 - h_pp h))%R ->
  (exists i, t = Leaf i) /\ forall Xq m, clf_predict t Xq m = repeat (INR (argmax Rgtb (add_counts 1 prior (repeat c (ts_n d))))) m.
Proof. exact (clf_const_predict srt k prior h d t c). Qed.
Print Assumptions C74_clf.
Theorem C74_hreg {C} (pre : C -> list R) srt cands prior h d t c : hreg_setting srt prior h d -> hreg_fit pre srt cands h d = Ok t ->
  (forall i, i < hs_n d -> hs_y d i = c) -> (h_pp h < INR (hs_dim d) * (1 - h_pp h))%R ->
  exists i, t = Leaf i /\ forall Xq m, hreg_predict t Xq m = repeat (ng_mu (i_post i)) m.
Proof. exact (hreg_const_predict pre srt cands prior h d t c). Qed.
Print Assumptions C74_hreg.
Theorem C74_hclf {C} (pre : C -> list R) srt cands k prior h d t c : hclf_setting srt k prior h d -> hclf_fit pre srt cands h d = Ok t ->
  (forall i, i < hs_n d -> hs_y d i = c) -> (h_pp h < INR (hs_dim d) * (1 - h_pp h))%R ->
  exists i, t = Leaf i /\ forall Xq m, hclf_predict t Xq m = repeat (INR (argmax Rgtb (i_post i))) m.
Proof. exact (hclf_const_predict pre srt cands k prior h d t c). Qed.
Print Assumptions C74_hclf.
(** Without the bound on the odds the models of a constant target need not be constant. *)
Theorem C74_reg_refuted : exists srt prior h d t Xq,
  reg_setting srt prior h d /\ h_prune h = true /\ h_delta h = 0%R /\ (forall i, ts_y d i = 1%R) /\
  reg_fit srt h d = Ok t /\ reg_predict t Xq 2 = [(1 / 2)%R; (2 / 3)%R].
Proof. exact reg_const_changes. Qed.
Print Assumptions C74_reg_refuted.
Theorem C74_clf_refuted : exists srt k prior h d t Xq,
  clf_setting srt k prior h d /\ h_prune h = true /\ h_delta h = 0%R /\ (forall i, i < ts_n d -> ts_y d i = 0%R) /\
  clf_fit srt h d = Ok t /\ clf_predict t Xq 2 = [1%R; 0%R].
Proof. exact clf_const_changes. Qed.
Print Assumptions C74_clf_refuted.

Example C74_case : let h := mkHyper (1 / 2) (Some p1) 0 false 0 in
  reg_setting sort_R p1 h one_set /\ (exists t, reg_fit sort_R h one_set = Ok t) /\
  (forall i, i < ts_n one_set -> ts_y one_set i = 1%R) /\ (h_pp h <= INR (ts_dim one_set) * (1 - h_pp h))%R.
Proof.
  intros h. assert (Hs : reg_setting sort_R p1 h one_set).
  { split; [apply sort_R_sorts|]. split; [unfold hyper_ok, h; cbn; lra|]. split; [apply one_set_ok|]. split; [reflexivity|]. exact p1_ok. }
  split; [exact Hs|]. split; [destruct (reg_fit_opt _ _ _ _ Hs) as (t & _ & E & _); exists t; exact E|]. split; [reflexivity|cbn; lra].
Qed.
Example C74_clf_case : let h := mkHyper (1 / 2) (Some [1; 3]%R) 0 false 0 in
  clf_setting sort_R 2 [1; 3]%R h (real_set ex_pure) /\ (exists t, clf_fit sort_R h (real_set ex_pure) = Ok t) /\
  (forall i, i < ts_n (real_set ex_pure) -> ts_y (real_set ex_pure) i = INR 0) /\ (h_pp h <= INR (ts_dim (real_set ex_pure)) * (1 - h_pp h))%R.
Proof.
  intros h. assert (Hy : forall i, i < ts_n (real_set ex_pure) -> ts_y (real_set ex_pure) i = INR 0).
  { intros i Hi. simpl in Hi. do 5 (destruct i as [|i]; [reflexivity|]). lia. }
  assert (Hs : clf_setting sort_R 2 [1; 3]%R h (real_set ex_pure)).
  { split; [apply sort_R_sorts|]. split; [unfold hyper_ok, h; cbn; lra|].
    split; [split; [cbn; lia|split; [vm_compute; discriminate|cbn; lia]]|]. split; [reflexivity|]. split; [reflexivity|].
    split; [repeat constructor; lra|]. intros i Hi. exists 0. split; [lia|auto]. }
  split; [exact Hs|]. split; [destruct (clf_fit_opt _ _ _ _ _ Hs) as (t & _ & E & _); exists t; exact E|]. split; [exact Hy|cbn; lra].
Qed.
(** Two columns, three rows, any candidates. *)
Example C74_hyper_case {C} (pre : C -> list R) cands : let h := mkHyper (1 / 2) (Some p1) 0 false 0 in
  let d := mkHSet 3 2 (fun i => [INR i; 1]%R) (fun _ => 5%R) in
  hreg_setting sort_R p1 h d /\ (exists t, hreg_fit pre sort_R cands h d = Ok t) /\
  (forall i, i < hs_n d -> hs_y d i = 5%R) /\ (h_pp h < INR (hs_dim d) * (1 - h_pp h))%R.
Proof.
  intros h d. split; [|split; [apply hreg_total|split; [reflexivity|cbn; lra]]].
  split; [apply sort_R_sorts|]. split; [cbn; lra|]. split; [cbn; lra|]. split; [split; [cbn; lia|split; [cbn; lia|reflexivity]]|].
  split; [reflexivity|]. exact p1_ok.
Qed.
Example C74_hyper_clf_case {C} (pre : C -> list R) cands : let h := mkHyper (1 / 2) (Some [1; 1]%R) 0 false 0 in
  let d := mkHSet 3 2 (fun i => [INR i; 1]%R) (fun _ => INR 1) in
  hclf_setting sort_R 2 [1; 1]%R h d /\ (exists t, hclf_fit pre sort_R cands h d = Ok t) /\
  (forall i, i < hs_n d -> hs_y d i = INR 1) /\ (h_pp h < INR (hs_dim d) * (1 - h_pp h))%R.
Proof.
  intros h d. split; [|split; [apply hclf_total|split; [reflexivity|cbn; lra]]].
  split; [apply sort_R_sorts|]. split; [cbn; lra|]. split; [cbn; lra|]. split; [split; [cbn; lia|split; [cbn; lia|reflexivity]]|].
  split; [reflexivity|]. split; [reflexivity|]. split; [repeat constructor; lra|]. intros i _. exists 1. split; [lia|reflexivity].
Qed.
