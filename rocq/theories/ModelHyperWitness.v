(** * ModelHyperWitness: a concrete refit of a hyperplane classification tree. *)
From Coq Require Import QArith Qreals Reals Lra Lia FunctionalExtensionality.
From Coq Require String.
From Verif Require Import Prelude Tree Perp RealOps Clf Reg Api Spec ClfProofs PruneProofs ApiSpec Hyper HyperSpec Exec Witness HyperExec HyperWitness Object ObjectSpec ObjectProofs
  Validate ValidateProofs Model ModelSpec ModelProofs ModelFit ModelLemmas ModelClasses ModelTargets ModelWitness.
Local Open Scope nat_scope.

Section Names.
Import String.
Open Scope string_scope.
Definition w_names : list string := ["a"; "b"].
End Names.

Definition flat_hset (n m : nat) (flat : list Z) (labels : list nat) : hset (list Q) nat :=
  mkHSet n m (fun i => map (fun f => inject_Z (nth (i * m + f) flat 0%Z)) (seq 0 m)) (fun i => nth i labels 0).
Lemma zvalid_hset n m flat labels names : hset_of (zvalid n m flat labels names) = hsetR (flat_hset n m flat labels).
Proof.
  unfold hset_of, hsetR, flat_hset, zvalid. cbn [v_X v_y v_names len cols a_shape hd nth hs_n hs_dim hs_X hs_y]. f_equal.
  - extensionality i. unfold row_of, vecR, cols. cbn [a_shape nth]. rewrite map_map. apply map_ext. intros f.
    unfold entry, cols. cbn [a_shape nth a_data]. rewrite (map_nth IZR flat 0%Z). unfold Q2R, inject_Z. cbn [Qnum Qden]. lra.
  - extensionality i. unfold target. cbn [v_y a_data]. apply (map_nth INR labels 0).
Qed.
Definition hest (h : hyper (list R)) := hclf_est id_cast id_cast x_names sort_R vecR h.
Definition w_cands : list bool -> list (list Q) := same_cands [[1;0];[0;1]]%Q.
Definition w_hh (prn : bool) : hyper (list R) := mkHyper (Q2R (9 # 10)) (Some (map IZR [1;1]%Z)) 0%R prn (Q2R 0).
Definition w_htree := Eval vm_compute in hexec (9 # 10) 0 false [1;1]%Z w_cands (flat_hset 8 2 w_flat [0;0;1;1;0;0;1;1]).
Lemma w_htree_run : hexec (9 # 10) 0 false [1;1]%Z w_cands (flat_hset 8 2 w_flat [0;0;1;1;0;0;1;1]) = w_htree.
Proof. vm_compute. reflexivity. Qed.

(** The state a successful fit produces; generic in the estimator. *)
Lemma he_fit_of {E A W C J Q Y P NM} (e : hyper_est E A W C J Q Y P NM) a prior v t : he_prune e = false -> he_validate e prior (snd a) = Ok v ->
  hfit (he_G e) (he_L e) (he_post e) (he_row e (v_X v)) (target (he_y0 e) v) (cols (v_X v)) (fst a) (Datatypes.S (len (v_X v))) 0 [] prior (seq 0 (len (v_X v))) = Ok t ->
  outcome_of (he_fit e a) (he_new prior) = Ok (hyper_obj t).
Proof.
  intros Hp Hv Ht. unfold he_fit. rewrite hyper_outcome. cbv beta. change (at_prior (oattrs (he_new prior))) with prior. unfold he_validate in Hv. rewrite Hv. cbn [rbind].
  change (at_level (oattrs (he_new prior))) with 0. rewrite Ht. rewrite Hp. reflexivity.
Qed.

(** The old tree is lost when its refit is interrupted. *)
Lemma hyper_refit_interrupt : exists h a1 o1 o x r,
  outcome_of (he_fit (hest h) a1) (he_new (h_prior h)) = Ok o1 /\
  interrupted (he_fit (hest h) a1) o1 o /\ is_fitted o = true /\
  he_query (hest h) (fun _ p => INR (clf_predict_leaf p)) 0%R o1 x = Ok r /\
  he_query (hest h) (fun _ p => INR (clf_predict_leaf p)) 0%R o x = Err AttributeError.
Proof.
  pose proof w_htree_run as E. unfold w_htree in E. match type of E with _ = Ok ?u => set (u0 := u) in E end.
  destruct (hexec_sound 2 (9 # 10) 0 0 false [1;1]%Z w_cands (flat_hset 8 2 w_flat [0;0;1;1;0;0;1;1]) u0) as [Hs Ht]; auto;
    [split; reflexivity|discriminate|apply unitb_ok; reflexivity|]. clear E Hs.
  assert (Hv : he_validate (hest (w_hh false)) (Some (map IZR [1;1]%Z)) w_args1 = Ok (zvalid 8 2 w_flat [0;0;1;1;0;0;1;1] w_names)).
  { apply (zvalid_ok 2 (w_h false)); reflexivity. }
  set (v := zvalid _ _ _ _ _) in Hv.
  assert (Ho : outcome_of (he_fit (hest (w_hh false)) (w_cands, w_args1)) (he_new (h_prior (w_hh false))) = Ok (hyper_obj (htreeR u0))).
  { apply (he_fit_of (hest (w_hh false)) (w_cands, w_args1) (h_prior (w_hh false)) v); [reflexivity|exact Hv|].
    rewrite <- (zvalid_hset 8 2 w_flat [0;0;1;1;0;0;1;1] w_names) in Ht. fold v in Ht.
    unfold hclf_fit, hyper_fit in Ht. cbn [h_prune] in Ht.
    match type of Ht with rbind ?r _ = _ => destruct r as [u|] eqn:Eu; [|discriminate Ht] end. cbn [rbind] in Ht. transitivity (Ok u); [exact Eu|exact Ht]. }
  assert (Hx : query_matrix (zquery 2 [0;0]%Z) 2) by apply zquery_matrix.
  assert (Hax : query_matrix (fa_X (snd (w_cands, w_args1))) 2) by (split; [reflexivity|right; eexists; reflexivity]).
  destruct (he_columns (hest (w_hh false)) (fun _ p => INR (clf_predict_leaf p)) 0%R _ _ _ (zquery 2 [0;0]%Z) 2 2 Hax Ho Hx) as (r & Hr & _).
  unfold u0 in *. cbn [htreeR] in *.
  match type of Ho with _ = Ok (hyper_obj (Split ?i ?d ?v1 ?v2 ?c1 ?c2)) =>
    destruct (he_refit_interrupted (hest (w_hh false)) (fun _ p => INR (clf_predict_leaf p)) 0%R (w_cands, w_args1) i d v1 v2 c1 c2 v (zquery 2 [0;0]%Z) 2) as (o & H1 & H2 & H3);
      [exact Hv|reflexivity|exact Hx| |] end.
  { exists 0. split; [cbn; lia|]. unfold he_back, hest, hclf_est, he_row, he_G, hgo1, geo_R, g_back. apply Rltb_true. unfold row_of. cbn.
    unfold entry. cbn. unfold dot. cbn. unfold Q2R. cbn. lra. }
  do 6 eexists. split; [exact Ho|]. split; [exact H1|]. split; [exact H2|]. split; [exact Hr|exact H3].
Qed.

(** ** Example histories *)
Definition new_clf (prn : bool) := pe_new (NM := string) (V := R) (h_prior (w_h prn)).
Lemma w_fit1 : exists o, outcome_of (pe_fit (est (w_h false)) w_args1) (new_clf false) = Ok o.
Proof.
  pose proof w_tree1_run as E1. unfold w_tree1 in E1. match type of E1 with _ = Ok ?u => set (v1 := u) in E1 end.
  destruct (model_run 2 (9 # 10) 0 false [1;1]%Z 8 2 w_flat [0;0;1;1;0;0;1;1] w_names v1) as (t1 & _ & _ & Hfit1); auto; try lia; [split; reflexivity|].
  eexists. apply Hfit1. constructor.
Qed.
Lemma w_matrix1 : query_matrix (fa_X w_args1) 2.
Proof. split; [reflexivity|right; eexists; reflexivity]. Qed.
Lemma w_margs1 : matrix_args w_args1 8 2.
Proof. repeat split; cbn; auto; try lia. right. eexists. reflexivity. Qed.
(** Labels 0 and 2 only. *)
Definition w_bad : fit_args R string := zargs 8 2 w_flat [0;0;2;2;0;0;2;2] w_names.
Lemma w_right : right_target (@id_cast) (Some : R -> fl) 2 (fa_y w_args1).
Proof.
  split; [reflexivity|]. intros v. cbn [w_args1 zargs fa_y a_data id_cast as_is]. rewrite map_map, in_map_iff. split.
  - intros (c & <- & Hc). exists c. split; auto. cbn in Hc. intuition lia.
  - intros (c & Hc & ->). exists c. split; auto. destruct c as [|[|c]]; [| |lia]; cbn; auto.
Qed.
Lemma w_wrong : ~ right_target (@id_cast) (Some : R -> fl) 2 (fa_y w_bad).
Proof.
  intros [_ H]. specialize (H (Some (INR 2))). destruct (proj1 H) as (c & Hc & E).
  - cbn [w_bad zargs fa_y a_data id_cast as_is]. rewrite map_map. apply in_map_iff. exists 2. cbn; auto.
  - apply (f_equal (fun o : fl => match o with Some r => r | None => 0%R end)) in E. cbv beta iota in E. apply INR_eq in E. lia.
Qed.
Lemma w_margs_bad : matrix_args w_bad 8 2.
Proof. repeat split; cbn; auto; try lia. right. eexists. reflexivity. Qed.
Lemma w_never : exists s, never_fitted (pe_fit (est (w_h false))) (new_clf false) s /\ raised (pe_fit (est (w_h false)) w_bad) (new_clf false) ValueError s.
Proof.
  assert (H : pe_fit (est (w_h false)) w_bad (new_clf false) = ([], Some ValueError)).
  { apply (pe_labels (Some : R -> fl) (@length R) (est (w_h false)) [IZR 1; IZR 1] (new_clf false) w_bad 8 2); auto.
    - apply clf_checks_est.
    - intros key n. apply sort_R_sorts.
    - constructor.
    - apply w_margs_bad.
    - apply w_wrong. }
  exists (new_clf false). assert (Hr : raised (pe_fit (est (w_h false)) w_bad) (new_clf false) ValueError (new_clf false)) by (unfold raised; rewrite H; auto).
  split; auto. constructor.
Qed.
Lemma w_refit_case : (exists o, reachable (pe_fit (est (w_h false))) (new_clf false) o /\ is_fitted o = true) /\
  pe_validate (est (w_h false)) (h_prior (w_h false)) w_bad = Err ValueError.
Proof.
  split.
  - destruct w_fit1 as (o & Ho). exists o. split; [apply (reach_done _ _ w_args1 (new_clf false)); [constructor|exact Ho]|].
    destruct (pe_fits (est (w_h false)) w_args1 _ o 2 w_matrix1 Ho) as (t & -> & _). destruct t; reflexivity.
  - apply (labels_decide (pe_cx (est (w_h false))) (pe_cy (est (w_h false))) (pe_name (est (w_h false))) (Some : R -> fl) (@length R) (pe_check (est (w_h false))) [IZR 1; IZR 1]); auto.
    + apply clf_checks_est.
    + apply w_wrong.
Qed.
Lemma w_labels_case h : clf_checks (@length R) (Some : R -> fl) (pe_check (est h)) /\ clf_checks (@length R) (Some : R -> fl) (he_check (hest h)) /\
  permutes (f_argsort (pe_F (est h))) /\ matrix_args w_args1 8 2 /\ matrix_args w_bad 8 2 /\
  right_target id_cast (Some : R -> fl) 2 (fa_y w_args1) /\ ~ right_target id_cast (Some : R -> fl) 2 (fa_y w_bad).
Proof.
  split; [apply clf_checks_est|]. split; [apply hclf_checks_est|]. split; [intros key n; apply sort_R_sorts|].
  split; [apply w_margs1|]. split; [apply w_margs_bad|]. split; [apply w_right|apply w_wrong].
Qed.
Lemma w_one_row_case srt h : Forall (fun n => n = 1) (a_shape (fa_y (zargs 1 2 [3;4]%Z [0] w_names))) /\
  supported (a_dtype (fa_y (zargs 1 2 [3;4]%Z [0] w_names))) = true /\
  reg_checks (Some : R -> fl) (pe_check (reg_est (@id_cast) id_cast x_names srt h)).
Proof. split; [repeat constructor|]. split; [reflexivity|apply reg_checks_est]. Qed.
Lemma w_default_case h : reg_checks (Some : R -> fl) (pe_check (reg_est (@id_cast) id_cast x_names sort_R h)) /\
  permutes (f_argsort (pe_F (reg_est (@id_cast) id_cast x_names sort_R h))) /\
  supported (a_dtype (fa_y w_args1)) = true /\ ndim (squeeze (fa_y w_args1)) = 1 /\ matrix_args w_args1 8 2.
Proof. split; [apply reg_checks_est|]. split; [intros key n; apply sort_R_sorts|]. split; [reflexivity|]. split; [reflexivity|apply w_margs1]. Qed.
Lemma w_answer : exists o r, outcome_of (pe_fit (est (w_h false)) w_args1) (new_clf false) = Ok o /\
  pe_query (est (w_h false)) (fun _ p => INR (clf_predict_leaf p)) 0%R o (zquery 2 [0;1]%Z) = Ok r /\ r = [0%R].
Proof.
  pose proof w_tree1_run as E1. unfold w_tree1 in E1. match type of E1 with _ = Ok ?u => set (v1 := u) in E1 end.
  destruct (model_run 2 (9 # 10) 0 false [1;1]%Z 8 2 w_flat [0;0;1;1;0;0;1;1] w_names v1) as (t1 & _ & Hd1 & Hfit1); auto; try lia; [split; reflexivity|].
  exists (perp_obj t1). eexists. split; [apply Hfit1; constructor|].
  assert (Hn : i_n_dim (info t1) = Some 2). { destruct t1; [discriminate Hd1|]. unfold v1 in Hd1. cbn [drop_scores tree_R] in Hd1. injection Hd1 as -> _ _ _. reflexivity. }
  split; [apply (zquery_predict (w_h false) t1 v1 2 [0;1]%Z Hd1 Hn)|]. reflexivity.
Qed.
Lemma w_inside : pe_prune (est (w_h false)) = false /\ at_post (oattrs (new_clf false)) = None /\
  exists o, interrupted (pe_fit (est (w_h false)) w_args1) (new_clf false) o /\ o <> new_clf false.
Proof.
  split; [reflexivity|]. split; [reflexivity|].
  pose proof w_tree1_run as E1. unfold w_tree1 in E1. match type of E1 with _ = Ok ?u => set (v1 := u) in E1 end.
  destruct (model_run 2 (9 # 10) 0 false [1;1]%Z 8 2 w_flat [0;0;1;1;0;0;1;1] w_names v1) as (t1 & Ht1 & Hd1 & _); auto; try lia; [split; reflexivity|].
  destruct t1 as [|i d u1 u2 c1 c2]; [discriminate Hd1|]. eexists. split.
  - apply (pe_inside (est (w_h false)) w_args1 (new_clf false) (zvalid 8 2 w_flat [0;0;1;1;0;0;1;1] w_names) i d u1 u2 c1 c2).
    + apply (zvalid_ok 2); reflexivity.
    + apply w_grown. exact Ht1.
  - intros H. apply (f_equal (fun o => ps_dim (at_split (oattrs o)))) in H. vm_compute in H. discriminate.
Qed.
