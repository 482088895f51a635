(** * NodeFacts: node contents of fitted trees, and what predict returns from them. *)
From Coq Require Import Permutation.
From Verif Require Import Prelude Lists Tree Perp RealOps Clf Reg Api Spec PredictProofs FitProofs
  StructProofs PruneProofs OptSpec OptProofs OptFit OptNodes ClfSpec ClfProofs RegSpec RegProofs ApiSpec ApiProofs.
Local Open Scope nat_scope.

Lemma posts_node_data {S P} (T : tgt R P S) prec srt (d : tset R R) :
  (forall p n, t_prior T (Some p) n (ts_dim d) = p) ->
  forall (t : tree (pdesc string R) S P) attr q rows,
  posts_spec (feat_R prec srt) T (ts_X d) (ts_y d) (ts_dim d) attr q rows t ->
  node_data (t_post T) (t_child_prior T) d attr q rows t.
Proof.
  intros Hp. induction t as [i|i s a b c1 IH1 c2 IH2]; intros attr q rows H.
  - exact H.
  - cbn [posts_spec] in H. cbv zeta in H. destruct H as (E1 & E2 & E3 & E4 & H1 & H2).
    cbn [node_data]. cbv zeta. do 4 (split; [assumption|]).
    rewrite Hp in H1, H2. split; [apply IH1; exact H1|apply IH2; exact H2].
Qed.

Lemma node_data_pruned {S P} post str (d : tset R R) (t t' : tree (pdesc string R) S P) :
  pruned_of t t' -> forall attr q rows, node_data post str d attr q rows t -> node_data post str d attr q rows t'.
Proof.
  induction 1 as [i|i s a b c1 c2|i s a b c1 c2 c1' c2' H1 IH1 H2 IH2]; intros attr q rows H.
  - exact H.
  - cbn [node_data] in *. tauto.
  - cbn [node_data] in *. cbv zeta in *. rewrite (pruned_info _ _ H1), (pruned_info _ _ H2).
    destruct H as (E1 & E2 & E3 & E4 & Ha & Hb). do 4 (split; [assumption|]). auto.
Qed.

(** The two fits. *)
Lemma clf_node_data srt k prior h d t : clf_setting srt k prior h d -> clf_fit srt h d = Ok t ->
  node_data (add_counts 1) (add_counts (h_delta h)) d (Some prior) prior (all_rows d) t.
Proof.
  intros H E. destruct (clf_fit_opt srt k prior h d H) as (t' & t0 & E' & Ho & _ & Hpr).
  rewrite E in E'. injection E' as <-.
  pose proof H as (Hs & (Hpp & Hdel & Hprec) & Hd & Hp & _).
  eapply node_data_pruned; [exact Hpr|].
  apply (posts_node_data (clf_tgt (h_pp h) (h_delta h)) (h_prec h) srt); [reflexivity|].
  pose proof (proj1 (opt_posts Rleb (gap_R (h_prec h)) mid_R (feat_R (h_prec h) srt) _ (ts_X d) (ts_y d) (ts_names d) (ts_dim d)
             (feat_R_law _ srt Hprec Hs) (feat_R_route _ srt Hprec)) _ _ _ _ Ho (all_rows_ne d Hd)) as Hposts.
  rewrite Hp in Hposts. exact Hposts.
Qed.

Lemma reg_node_data srt prior h d t : reg_setting srt prior h d -> reg_fit srt h d = Ok t ->
  node_data (ng_update 1) (ng_update (h_delta h)) d (h_prior h) prior (all_rows d) t.
Proof.
  intros H E. destruct (reg_fit_opt srt prior h d H) as (t' & t0 & E' & Ho & _ & Hpr).
  rewrite E in E'. injection E' as <-.
  pose proof H as (Hs & (Hpp & Hdel & Hprec) & Hd & Hp & _).
  eapply node_data_pruned; [exact Hpr|].
  apply (posts_node_data (reg_tgt (h_pp h) (h_delta h)) (h_prec h) srt); [reflexivity|].
  pose proof (proj1 (opt_posts Rleb (gap_R (h_prec h)) mid_R (feat_R (h_prec h) srt) _ (ts_X d) (ts_y d) (ts_names d) (ts_dim d)
             (feat_R_law _ srt Hprec Hs) (feat_R_route _ srt Hprec)) _ _ _ _ Ho (all_rows_ne d Hd)) as Hposts.
  rewrite Hp. unfold all_rows in Hposts at 1. rewrite seq_length in Hposts. exact Hposts.
Qed.

(** Invariants of priors propagate to every node. *)
Lemma node_data_inv {S P} post str (d : tset R R) (Q : P -> Prop) (Yq : R -> Prop) :
  (forall q ys, Q q -> ys <> [] -> Forall Yq ys -> Q (str q ys)) ->
  forall (t : tree (pdesc string R) S P) attr q rows,
  Forall Yq (targets d rows) -> Q q -> (forall p, attr = Some p -> Q p) -> node_data post str d attr q rows t ->
  nodes_ok (goes_left (ts_X d)) (goes_right (ts_X d))
    (fun r u => r <> [] /\ Forall Yq (targets d r) /\ i_n_data (info u) = length r /\
       (forall p, i_prior (info u) = Some p -> Q p) /\
       exists q', Q q' /\ i_post (info u) = post q' (targets d r)) rows t.
Proof.
  intros Hstr. induction t as [i|i s a b c1 IH1 c2 IH2]; intros attr q rows HY Hq Ha H.
  - destruct H as (E1 & E2 & E3 & E4 & _). simpl. rewrite <- E1 in Ha. repeat split; auto. eauto.
  - cbn [node_data] in H. cbv zeta in H. destruct H as (E1 & E2 & E3 & E4 & H1 & H2).
    cbn [nodes_ok]. split; [rewrite <- E1 in Ha; repeat split; auto; eauto|].
    assert (HYf : forall f : nat -> bool, Forall Yq (targets d (filter f rows))).
    { intros f. rewrite Forall_forall in *. intros v Hv. apply in_map_iff in Hv as (j & <- & Hj).
      apply filter_In in Hj. apply HY. apply in_map. tauto. }
    assert (Hne : forall (c : tree (pdesc string R) S P) a' q' rs, node_data post str d a' q' rs c -> targets d rs <> []).
    { intros c a' q' rs Hc. destruct c; destruct Hc as (_ & Hrs & _); unfold targets; destruct rs; simpl; congruence. }
    pose proof (Hne _ _ _ _ H1) as N1. pose proof (Hne _ _ _ _ H2) as N2.
    split.
    + refine (IH1 _ _ _ _ _ _ H1); auto.
      * destruct (i_n_dim (info c1)); auto.
      * intros p E; injection E as <-; auto.
    + refine (IH2 _ _ _ _ _ _ H2); auto.
      * destruct (i_n_dim (info c2)); auto.
      * intros p E; injection E as <-; auto.
Qed.

Lemma targets_all_Yok k (d : tset R R) : (forall i, i < ts_n d -> clf_yok k (ts_y d i)) ->
  Forall (clf_yok k) (targets d (all_rows d)).
Proof.
  intros H. rewrite Forall_forall. intros v Hv. apply in_map_iff in Hv as (i & <- & Hi).
  apply in_seq in Hi. apply H. lia.
Qed.

(** Node invariant of classification trees for every delta. *)
Definition clf_node (k : nat) (d : tset R R) (r : list nat) (u : ctree) : Prop :=
  r <> [] /\ Forall (clf_yok k) (targets d r) /\ i_n_data (info u) = length r /\
  (forall p, i_prior (info u) = Some p -> clf_pok k p) /\
  exists q', clf_pok k q' /\ i_post (info u) = add_counts 1 q' (targets d r).
Lemma clf_nodes srt k prior h d t : clf_setting srt k prior h d -> clf_fit srt h d = Ok t ->
  every_node d t (clf_node k d).
Proof.
  intros H E. pose proof (clf_node_data srt k prior h d t H E) as Hn.
  assert (Hok : clf_pok k prior) by (destruct H as (_ & _ & _ & _ & H1 & H2 & _); split; auto).
  unfold every_node, clf_node.
  refine (node_data_inv _ _ d (clf_pok k) (clf_yok k) _ t _ _ _ _ _ _ Hn); auto.
  - intros q ys Hq _ _. destruct H as (_ & (_ & Hdel & _) & _). eapply add_counts_pos; eauto.
  - apply targets_all_Yok. eapply clf_setting_Yok; eauto.
  - intros p Ep. injection Ep as <-. auto.
Qed.

(** With delta = 0 every node uses the root prior. *)
Lemma node_data_const {S P} post str (d : tset R R) (q : P) :
  (forall ys, str q ys = q) ->
  forall (t : tree (pdesc string R) S P) attr rows, node_data post str d attr q rows t ->
  nodes_ok (goes_left (ts_X d)) (goes_right (ts_X d))
    (fun r u => r <> [] /\ i_n_data (info u) = length r /\ i_post (info u) = post q (targets d r)) rows t.
Proof.
  intros Hstr. induction t as [i|i s a b c1 IH1 c2 IH2]; intros attr rows H.
  - destruct H as (E1 & E2 & E3 & E4 & _). simpl. auto.
  - cbn [node_data] in H. cbv zeta in H. destruct H as (E1 & E2 & E3 & E4 & H1 & H2).
    rewrite Hstr in H1, H2. cbn [nodes_ok]. split; auto.
    split; [eapply IH1|eapply IH2].
    + destruct (i_n_dim (info c1)); exact H1.
    + destruct (i_n_dim (info c2)); exact H2.
Qed.

Lemma add_counts_0 p ys : add_counts 0 p ys = p.
Proof.
  unfold add_counts. rewrite (map_ext _ (fun c => nth c p 0%R)); [apply map_seq_nth|]. intros c. ring.
Qed.
Lemma ng_update_0 p ys : reg_pok p -> ng_update 0 p ys = p.
Proof.
  intros (Hk & _). destruct p as [mu ka al be]. unfold ng_update. simpl in *. f_equal; try field; try lra.
  pose proof (pos_INR (length ys)). lra.
Qed.

Lemma clf_nodes0 srt k prior h d t : clf_setting srt k prior h d -> h_delta h = 0%R -> clf_fit srt h d = Ok t ->
  every_node d t (fun r u => r <> [] /\ i_n_data (info u) = length r /\ i_post (info u) = add_counts 1 prior (targets d r)).
Proof.
  intros H Hd E. pose proof (clf_node_data srt k prior h d t H E) as Hn. rewrite Hd in Hn.
  eapply node_data_const; [|exact Hn]. intros ys. apply add_counts_0.
Qed.
Lemma reg_nodes0 srt prior h d t : reg_setting srt prior h d -> h_delta h = 0%R -> reg_fit srt h d = Ok t ->
  every_node d t (fun r u => r <> [] /\ i_n_data (info u) = length r /\ i_post (info u) = ng_update 1 prior (targets d r)).
Proof.
  intros H Hd E. pose proof (reg_node_data srt prior h d t H E) as Hn. rewrite Hd in Hn.
  eapply node_data_const; [|exact Hn]. intros ys. apply ng_update_0.
  destruct H as (_ & _ & _ & _ & H). exact H.
Qed.

(** ** Predictions *)
(** C03 *)
Lemma proba_frequency srt k prior h d t Xq m q c :
  clf_setting srt k prior h d -> h_delta h = 0%R -> clf_fit srt h d = Ok t -> q < m -> c < k ->
  let mates := leaf_mates d t Xq q in
  exists p, nth_error (clf_predict_proba t Xq m) q = Some (Some p) /\ length p = k /\
    nth c p 0%R = ((nth c prior 0 + INR (count_label c (targets d mates))) / (vsum prior + INR (length mates)))%R.
Proof.
  intros H Hd E Hq Hc mates. pose proof (clf_nodes0 srt k prior h d t H Hd E) as Hn.
  pose proof (clf_nodes srt k prior h d t H E) as Hn'.
  pose proof H as (_ & _ & _ & _ & Hk & Hpos & _).
  destruct (predict_mates d t _ Xq m q (fun i => Some (clf_posterior_mean (i_post i))) None Hn Hq) as (l & El & Hl).
  destruct (predict_mates d t _ Xq m q (fun i => Some (clf_posterior_mean (i_post i))) None Hn' Hq) as (l' & El' & Hl').
  destruct Hl as (Hne & Hlen & Hpost). destruct Hl' as (_ & HY & _).
  fold mates in Hne, Hlen, Hpost, HY. simpl in Hpost, Hlen.
  unfold clf_predict_proba. rewrite El. exists (clf_posterior_mean (i_post l)). split; auto.
  rewrite Hpost. unfold clf_posterior_mean. split; [rewrite map_length, add_counts_length; auto|].
  set (s := vsum (add_counts 1 prior (targets d mates))).
  rewrite (nth_indep _ 0%R ((fun a => a / s)%R 0%R)) by (rewrite map_length, add_counts_length, Hk; auto).
  rewrite (map_nth (fun a => a / s)%R). rewrite add_counts_nth by (rewrite Hk; auto). unfold s.
  rewrite (add_counts_sum k) by auto. unfold targets. rewrite map_length. f_equal; ring.
Qed.

(** C04 *)
Lemma posterior_mean_dist k p : clf_pok k p -> k <> 0 ->
  length (clf_posterior_mean p) = k /\ Forall (fun x => (0 < x)%R) (clf_posterior_mean p) /\ vsum (clf_posterior_mean p) = 1%R.
Proof.
  intros [Hl Hp] Hk. unfold clf_posterior_mean.
  assert (Hs : (0 < vsum p)%R) by (apply vsum_pos; auto; destruct p; simpl in *; congruence).
  split; [rewrite map_length; auto|]. split.
  - rewrite Forall_forall in *. intros x Hx. apply in_map_iff in Hx as (a & <- & Ha).
    apply Rdiv_lt_0_compat; auto.
  - assert (H : forall l, vsum (map (fun a => (a / vsum p)%R) l) = (vsum l / vsum p)%R).
    { induction l as [|a l IH]; simpl map. change (vsum []) with 0%R. field; lra.
      rewrite !vsum_cons, IH. field; lra. }
    rewrite H. field. lra.
Qed.
Lemma clf_setting_k srt k prior h d : clf_setting srt k prior h d -> k <> 0.
Proof. intros (_ & _ & (Hn & _) & _ & _ & _ & H). destruct (H 0 Hn) as (c & Hc & _). lia. Qed.

Lemma proba_dist srt k prior h d t Xq m q : clf_setting srt k prior h d -> clf_fit srt h d = Ok t -> q < m ->
  exists p, nth_error (clf_predict_proba t Xq m) q = Some (Some p) /\ length p = k /\
    Forall (fun x => (0 < x)%R) p /\ vsum p = 1%R.
Proof.
  intros H E Hq. pose proof (clf_nodes srt k prior h d t H E) as Hn.
  destruct (predict_mates d t _ Xq m q (fun i => Some (clf_posterior_mean (i_post i))) None Hn Hq) as (l & El & Hl).
  destruct Hl as (_ & _ & _ & _ & q' & Hq' & Hpost). simpl in Hpost.
  exists (clf_posterior_mean (i_post l)). split; auto. rewrite Hpost. apply posterior_mean_dist.
  - eapply add_counts_pos; eauto. lra.
  - eapply clf_setting_k; eauto.
Qed.

(** C05: first maximal entry. *)
Lemma argmax_R (l : list R) : l <> [] ->
  argmax Rgtb l < length l /\ forall j, j < length l ->
    (nth j l 0 <= nth (argmax Rgtb l) l 0)%R /\ (nth j l 0%R = nth (argmax Rgtb l) l 0%R -> argmax Rgtb l <= j).
Proof.
  intros Hl. destruct (argmax_spec Rgtb (fun a => Rgtb_irrefl a) (fun a b c => Rgtb_trans a b c) (fun a b c => Rgtb_ntrans a b c) l Hl)
    as (s & Es & Hs).
  split; [apply argmax_range; auto|]. intros j Hj. rewrite (nth_error_nth l _ _ Es).
  destruct (nth_error l j) as [s'|] eqn:Ej; [|apply nth_error_None in Ej; lia].
  rewrite (nth_error_nth l _ _ Ej). destruct (Hs j s' Ej) as [H1 H2]. apply Rgtb_false in H1. split; auto.
  intros ->. apply H2. apply Rgtb_irrefl.
Qed.
Lemma argmax_unique (l : list R) i : i < length l ->
  (forall j, j < length l -> (nth j l 0 <= nth i l 0)%R /\ (nth j l 0%R = nth i l 0%R -> i <= j)) -> argmax Rgtb l = i.
Proof.
  intros Hi H. assert (Hl : l <> []) by (destruct l; simpl in *; [lia|congruence]).
  destruct (argmax_R l Hl) as [Hr Ha]. destruct (H _ Hr) as [H1 H2]. destruct (Ha _ Hi) as [H3 H4].
  assert (nth (argmax Rgtb l) l 0%R = nth i l 0%R) as E by lra. specialize (H2 E). symmetry in E. specialize (H4 E). lia.
Qed.
Lemma argmax_mean (p : list R) : (0 < vsum p)%R -> argmax Rgtb (clf_posterior_mean p) = argmax Rgtb p.
Proof.
  intros Hs. destruct p as [|a p'] eqn:Ep; [reflexivity|]. rewrite <- Ep in *.
  assert (Hne : p <> []) by congruence. destruct (argmax_R p Hne) as [Hr Ha].
  apply argmax_unique; unfold clf_posterior_mean; rewrite map_length; auto.
  intros j Hj. set (f := fun a0 : R => (a0 / vsum p)%R).
  rewrite (nth_indep _ 0%R (f 0%R)) by (rewrite map_length; auto).
  rewrite (nth_indep (map f p) 0%R (f 0%R)) by (rewrite map_length; auto).
  rewrite !map_nth. destruct (Ha j Hj) as [H1 H2]. unfold f. split.
  - apply Rmult_le_compat_r; auto. left. apply Rinv_0_lt_compat; auto.
  - intros E. apply H2. apply (Rmult_eq_reg_r (/ vsum p)%R); auto. apply Rinv_neq_0_compat. lra.
Qed.

Lemma predict_first_max srt k prior h d t Xq m q : clf_setting srt k prior h d -> clf_fit srt h d = Ok t -> q < m ->
  exists p c, nth_error (clf_predict_proba t Xq m) q = Some (Some p) /\ nth_error (clf_predict t Xq m) q = Some (INR c) /\
    c < length p /\ (forall j, j < length p -> (nth j p 0 <= nth c p 0)%R) /\ (forall j, j < c -> (nth j p 0 < nth c p 0)%R).
Proof.
  intros H E Hq. pose proof (clf_nodes srt k prior h d t H E) as Hn.
  destruct (predict_value t Xq m q (fun i => Some (clf_posterior_mean (i_post i))) None Hq) as (l & Hl & El).
  destruct (predict_value t Xq m q (fun i => INR (clf_predict_leaf (i_post i))) 0%R Hq) as (l' & Hl' & El').
  assert (l' = l) as ->. { eapply reaches_unique; [|exact Hl'|exact Hl]. intros s A B; simpl in *; congruence. }
  pose proof (every_node_mates d t _ Xq q l Hn Hl) as (_ & _ & _ & _ & q' & Hq' & Hpost). simpl in Hpost.
  pose proof (clf_setting_k _ _ _ _ _ H) as Hk.
  assert (Hok : clf_pok k (i_post l)) by (rewrite Hpost; eapply add_counts_pos; eauto; lra).
  destruct (posterior_mean_dist k _ Hok Hk) as (Hlen & _ & _).
  assert (Hs : (0 < vsum (i_post l))%R) by (destruct Hok as [A B]; apply vsum_pos; auto; destruct (i_post l); simpl in *; congruence).
  exists (clf_posterior_mean (i_post l)), (clf_predict_leaf (i_post l)).
  unfold clf_predict_proba, clf_predict. rewrite El, El'. split; auto. split; auto.
  unfold clf_predict_leaf. rewrite <- argmax_mean by auto.
  assert (Hne : clf_posterior_mean (i_post l) <> []) by (intros A; rewrite A in Hlen; simpl in Hlen; lia).
  destruct (argmax_R _ Hne) as [Hr Ha]. split; auto. split; intros j Hj.
  - apply Ha; auto.
  - destruct (Ha j ltac:(lia)) as [H1 H2]. destruct H1 as [H1|H1]; auto. specialize (H2 H1). lia.
Qed.

(** C06 *)
Lemma reg_predict_mean srt prior h d t Xq m q :
  reg_setting srt prior h d -> h_delta h = 0%R -> reg_fit srt h d = Ok t -> q < m ->
  let mates := leaf_mates d t Xq q in
  nth_error (reg_predict t Xq m) q =
    Some ((ng_kappa prior * ng_mu prior + vsum (targets d mates)) / (ng_kappa prior + INR (length mates)))%R.
Proof.
  intros H Hd E Hq mates. pose proof (reg_nodes0 srt prior h d t H Hd E) as Hn.
  destruct (predict_mates d t _ Xq m q (fun i => reg_predict_leaf (i_post i)) 0%R Hn Hq) as (l & El & Hl).
  destruct Hl as (Hne & _ & Hpost). simpl in Hpost. fold mates in Hne, Hpost.
  unfold reg_predict. rewrite El. f_equal. rewrite Hpost. unfold reg_predict_leaf, ng_update. simpl.
  assert (Hlen : length (targets d mates) = length mates) by apply map_length.
  assert (Hp : (0 < INR (length mates))%R) by (apply INR_len_pos; auto).
  unfold mean. rewrite Hlen. pose proof H as (_ & _ & _ & _ & Hk & _). field. split; lra.
Qed.

(** C08: hull *)
Lemma vsum_bounds lo hi l : Forall (fun v => (lo <= v <= hi)%R) l ->
  (INR (length l) * lo <= vsum l <= INR (length l) * hi)%R.
Proof.
  induction 1 as [|x l Hx Hl IH]; simpl length. unfold vsum; simpl; lra.
  rewrite S_INR, vsum_cons. lra.
Qed.
Lemma ng_update_hull lo hi w p ys : (0 <= w)%R -> reg_pok p -> ys <> [] -> (lo <= ng_mu p <= hi)%R ->
  Forall (fun v => (lo <= v <= hi)%R) ys -> (lo <= ng_mu (ng_update w p ys) <= hi)%R.
Proof.
  intros Hw (Hk & _) Hne Hmu Hys. unfold ng_update. simpl.
  pose proof (INR_len_pos ys Hne) as Hn. apply vsum_bounds in Hys.
  assert (Hm : (lo <= mean ys <= hi)%R).
  { unfold mean. split; apply (Rmult_le_reg_r (INR (length ys))); auto; unfold Rdiv; rewrite Rmult_assoc, Rinv_l by lra; lra. }
  assert (Hnw : (0 <= INR (length ys) * w)%R) by (apply Rmult_le_pos; lra).
  set (c := (INR (length ys) * w)%R) in *. set (ka := ng_kappa p) in *. set (mu := ng_mu p) in *.
  split.
  - apply (Rmult_le_reg_r (ka + c)); [lra|]. unfold Rdiv. rewrite Rmult_assoc, Rinv_l by lra.
    assert (ka * lo <= ka * mu)%R by (apply Rmult_le_compat_l; lra).
    assert (c * lo <= c * mean ys)%R by (apply Rmult_le_compat_l; lra). lra.
  - apply (Rmult_le_reg_r (ka + c)); [lra|]. unfold Rdiv. rewrite Rmult_assoc, Rinv_l by lra.
    assert (ka * mu <= ka * hi)%R by (apply Rmult_le_compat_l; lra).
    assert (c * mean ys <= c * hi)%R by (apply Rmult_le_compat_l; lra). lra.
Qed.

Lemma reg_predict_hull srt prior h d t Xq m q lo hi :
  reg_setting srt prior h d -> reg_fit srt h d = Ok t -> q < m ->
  (lo <= ng_mu prior <= hi)%R -> (forall i, i < ts_n d -> (lo <= ts_y d i <= hi)%R) ->
  exists v, nth_error (reg_predict t Xq m) q = Some v /\ (lo <= v <= hi)%R.
Proof.
  intros H E Hq Hmu Hy. pose proof (reg_node_data srt prior h d t H E) as Hn.
  pose proof H as (_ & (_ & Hdel & _) & _ & Hpr & Hpok).
  set (Q := fun p => reg_pok p /\ (lo <= ng_mu p <= hi)%R).
  assert (HQ : Q prior) by (split; auto).
  assert (Hstr : forall p ys, Q p -> ys <> [] -> Forall (fun v => (lo <= v <= hi)%R) ys -> Q (ng_update (h_delta h) p ys)).
  { intros p ys [Hp1 Hp2] Hne HYs. split; [apply ng_update_ok; auto|apply ng_update_hull; auto]. }
  assert (HY0 : Forall (fun v => (lo <= v <= hi)%R) (targets d (all_rows d))).
  { rewrite Forall_forall. intros v Hv. apply in_map_iff in Hv as (i & <- & Hi). apply in_seq in Hi. apply Hy. lia. }
  assert (Ha : forall p, h_prior h = Some p -> Q p).
  { intros p Ep. rewrite Ep in Hpr. subst p. auto. }
  pose proof (node_data_inv (ng_update 1) (ng_update (h_delta h)) d Q _ Hstr t _ _ _ HY0 HQ Ha Hn) as Hnodes.
  destruct (predict_mates d t _ Xq m q (fun i => reg_predict_leaf (i_post i)) 0%R Hnodes Hq) as (l & El & Hl).
  destruct Hl as (Hne & HY & _ & _ & q' & [Hq1 Hq2] & Hpost). simpl in Hpost.
  exists (reg_predict_leaf (i_post l)). split; auto. rewrite Hpost. unfold reg_predict_leaf.
  apply ng_update_hull; auto; try lra. unfold targets. destruct (leaf_mates d t Xq q); simpl; congruence.
Qed.
