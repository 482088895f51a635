(** * HyperLemmas: composite statements about hyperplane trees, closed in PropertiesHyper.v. *)
From Coq Require Import Reals Permutation Sorted.
From Verif Require Import Prelude Lists Tree Perp RealOps Clf Reg Api Importance Hyper Spec FitProofs OptSpec OptProofs OptNodes ClfSpec RegSpec
  ApiSpec HyperSpec ClfProofs RegProofs PruneProofs StructProofs NodeFacts SplitFacts PredictProofs PropLemmas ImportanceProofs
  HyperProofs HyperOpt HyperDist HyperApi.
Local Open Scope nat_scope.

(** ** delta is not used (C38) *)
Definition with_delta {P} (delta : R) (h : hyper P) : hyper P := mkHyper (h_pp h) (h_prior h) delta (h_prune h) (h_prec h).
Lemma hclf_delta {C} (pre : C -> list R) srt cands h d delta : hclf_fit pre srt cands (with_delta delta h) d = hclf_fit pre srt cands h d.
Proof. reflexivity. Qed.
Lemma hreg_delta {C} (pre : C -> list R) srt cands h d delta : hreg_fit pre srt cands (with_delta delta h) d = hreg_fit pre srt cands h d.
Proof. reflexivity. Qed.

Lemma clf_posterior_0 p ys : clf_posterior 0 p ys = p.
Proof. unfold clf_posterior, Reqb. destruct (Req_EM_T 0 0); auto. lra. Qed.
Lemma reg_posterior_0 p ys : reg_posterior 0 p ys = p.
Proof. unfold reg_posterior, Reqb. destruct (Req_EM_T 0 0); auto. lra. Qed.

Lemma hclf_parts srt k prior h d : hclf_setting srt k prior h d ->
  sorts Rleb srt /\ (0 <= h_prec h)%R /\ hset_ok d /\ h_prior h = Some prior /\ clf_pok k prior /\ k <> 0 /\
  (forall i, i < hs_n d -> clf_yok k (hs_y d i)).
Proof.
  intros (H1 & H2 & H3 & H4 & H5 & H6 & H7 & H8).
  refine (conj H1 (conj H3 (conj H4 (conj H5 (conj (conj H6 H7) (conj _ H8)))))).
  destruct H4 as (Hn & _). destruct (H8 0 Hn) as (c & Hc & _). lia.
Qed.
Lemma hreg_parts srt prior h d : hreg_setting srt prior h d ->
  sorts Rleb srt /\ (0 <= h_prec h)%R /\ hset_ok d /\ reg_pok prior /\
  prior = match h_prior h with Some p => p | None => default_ng (hs_n d) end.
Proof. intros (H1 & H2 & H3 & H4 & H5 & H6). auto. Qed.
Lemma hreg_prior srt prior h d : hreg_setting srt prior h d ->
  l_prior (reg_lik (h_pp h) 0) (h_prior h) (length (seq 0 (hs_n d))) (hs_dim d) = prior.
Proof.
  intros H. apply hreg_parts in H as (_ & _ & _ & _ & ->). rewrite seq_length. simpl. unfold default_ng, reg_get_prior.
  destruct (h_prior h); auto. f_equal; field.
Qed.
Lemma hset_rows d : hset_ok d -> sub_rows d (seq 0 (hs_n d)).
Proof.
  intros (Hn & _). split; [apply seq_NoDup|]. split; [destruct (hs_n d); [lia|discriminate]|].
  intros i Hi. apply in_seq in Hi. lia.
Qed.
Lemma rows_Yok {Y} (Yok : Y -> Prop) {W} (d : hset W Y) rows : (forall i, i < hs_n d -> Yok (hs_y d i)) -> (forall i, In i rows -> i < hs_n d) ->
  Forall Yok (htargets d rows).
Proof. intros H H'. apply Forall_forall. intros z Hz. apply in_map_iff in Hz as (i & <- & Hi). auto. Qed.

Lemma nodes_ok_sub {D S P} left right (Pr : list nat -> tree D S P -> Prop) t : forall rows,
  nodes_ok left right Pr rows t -> nodes_ok left right (fun r u => Pr r u /\ incl r rows) rows t.
Proof.
  assert (Hg : forall t rows rows0, incl rows rows0 -> nodes_ok left right Pr rows t -> nodes_ok left right (fun r u => Pr r u /\ incl r rows0) rows t).
  { clear t. induction t as [|i s a b c1 IH1 c2 IH2]; simpl; intros rows rows0 Hi; [tauto|]. intros (H & H1 & H2).
    split; [auto|]. split; [apply IH1|apply IH2]; auto; intros x Hx; apply filter_In in Hx; apply Hi; tauto. }
  intros rows. apply Hg. apply incl_refl.
Qed.
Lemma nodes_ok_imp {D S P} left right (Pr Qr : list nat -> tree D S P -> Prop) : (forall r u, Pr r u -> Qr r u) ->
  forall t rows, nodes_ok left right Pr rows t -> nodes_ok left right Qr rows t.
Proof. intros H. induction t as [|i s a b c1 IH1 c2 IH2]; simpl; intros rows; intuition. Qed.

(** ** C35 *)
Lemma hclf_nodes {C} (pre : C -> list R) srt cands k prior h d t : hclf_setting srt k prior h d -> hclf_fit pre srt cands h d = Ok t ->
  every_hnode d t (fun rows n => rows <> [] /\ i_n_data (info n) = length rows /\
    i_post (info n) = add_counts 1 prior (htargets d rows) /\ i_prior (info n) = Some prior).
Proof.
  intros H E. apply hclf_parts in H as (Hs & Hp & Hd & Hpr & Hok & Hk & Hy).
  unfold hclf_fit in E. apply hyper_fit_inv in E as (t0 & E0 & Hpo).
  eapply hfit_nodes with (pa0 := Some prior) (q := prior) in E0; [|apply clf_posterior_0|reflexivity|apply (hset_rows d Hd)|rewrite Hpr; reflexivity|auto].
  apply nodes_ok_sub in E0.
  eapply pruned_nodes_ok' in E0; [|simpl; auto|simpl; auto|exact Hpo].
  unfold every_hnode, hrows. eapply nodes_ok_imp; [|exact E0]. cbv beta. intros r u ((R1 & R2 & R3 & R4) & R5).
  split; auto. split; auto. split; [|tauto]. rewrite R3.
  apply (ll_post _ _ _ _ (clf_law k (h_pp h) 0 (Rle_refl 0))); auto.
  - apply rows_Yok; auto. intros i Hi. apply R5, in_seq in Hi. lia.
  - destruct r; [congruence|discriminate].
Qed.
Lemma hreg_nodes {C} (pre : C -> list R) srt cands prior h d t : hreg_setting srt prior h d -> hreg_fit pre srt cands h d = Ok t ->
  every_hnode d t (fun rows n => rows <> [] /\ i_n_data (info n) = length rows /\
    i_post (info n) = ng_update 1 prior (htargets d rows) /\ (i_prior (info n) = h_prior h \/ i_prior (info n) = Some prior)).
Proof.
  intros H E. pose proof (hreg_prior _ _ _ _ H) as Hpr. apply hreg_parts in H as (Hs & Hp & Hd & Hok & _).
  unfold hreg_fit in E. apply hyper_fit_inv in E as (t0 & E0 & Hpo).
  eapply hfit_nodes with (pa0 := h_prior h) (q := prior) in E0; [|apply reg_posterior_0|reflexivity|apply (hset_rows d Hd)|exact Hpr|auto].
  eapply pruned_nodes_ok' in E0; [|simpl; auto|simpl; auto|exact Hpo].
  unfold every_hnode, hrows. eapply nodes_ok_imp; [|exact E0]. cbv beta. intros r u (R1 & R2 & R3 & R4).
  split; auto. split; auto. split; [|tauto]. rewrite R3.
  apply (ll_post _ _ _ _ (reg_law (h_pp h) 0 (Rle_refl 0))); auto.
  - apply Forall_forall; auto.
  - destruct r; [congruence|discriminate].
Qed.

(** ** Predictions *)
Lemma before_behind Xq pl q : before Xq pl q = negb (behind Xq pl q).
Proof. unfold before, behind, Rgeb, Rleb, Rltb. destruct (Rle_dec _ _), (Rlt_dec _ _); auto; lra. Qed.

Lemma hpredict_value {S P O} (t : tree (plane (list R) (list R)) S P) Xq m i (val : ninfo P -> O) init : i < m ->
  exists l, reaches (fun s => before Xq s i = false) (fun s => before Xq s i = true) t l /\
    nth_error (predict_rows (behind Xq) (before Xq) val t m init) i = Some (val l).
Proof.
  intros Hi. destruct (lookup_reaches (behind Xq) (before Xq) val t i) as (l & Hr & E).
  - intros s _. apply before_behind.
  - exists l. split.
    + clear E. induction Hr as [j|j s a b c1 c2 l Hl Hr IH|j s a b c1 c2 l Hl Hr IH].
      * constructor.
      * apply reaches_left; auto. rewrite before_behind, Hl. auto.
      * apply reaches_right; auto.
    + rewrite predict_rows_spec, nth_error_map, nth_error_seq.
      apply Nat.ltb_lt in Hi. rewrite Hi. simpl. rewrite E. auto.
Qed.
Lemma hevery_node_mates {S P} (d : hset (list R) R) (t : tree (plane (list R) (list R)) S P) Pr Xq i l :
  every_hnode d t Pr ->
  reaches (fun s => before Xq s i = false) (fun s => before Xq s i = true) t l ->
  Pr (hleaf_mates d t Xq i) (Leaf l).
Proof.
  intros H Hr. unfold every_hnode in H.
  assert (Hex : forall s j, behind (hs_X d) s j = negb (before (hs_X d) s j)) by (intros; rewrite before_behind, negb_involutive; auto).
  destruct (nodes_ok_same_leaf _ _ _ (fun s => before Xq s i) t (hrows d) Hex H) as (l' & Hr' & HP).
  assert (l = l') as ->; auto. eapply reaches_unique; [|exact Hr|exact Hr'].
  simpl. intros s Ha Hb. congruence.
Qed.

Lemma hpredict_rowwise {S P O} (val : ninfo P -> O) (t : tree (plane (list R) (list R)) S P) Xq m init :
  hrowwise val t Xq m (predict_rows (behind Xq) (before Xq) val t m init).
Proof.
  split; [rewrite predict_rows_spec, map_length, seq_length; auto|].
  intros q Hq. destruct (hpredict_value t Xq m q val init Hq) as (l & Hl & E).
  assert (Hc : forall (u : tree (plane (list R) (list R)) S P) w, reaches (fun s => before Xq s q = false) (fun s => before Xq s q = true) u w ->
     reaches (fun pl => (dot (Xq q) (p_normal pl) < dot (p_normal pl) (p_origin pl))%R) (fun pl => (dot (Xq q) (p_normal pl) >= dot (p_normal pl) (p_origin pl))%R) u w).
  { clear. induction 1 as [j|j s a b c1 c2 l Hl Hr IH|j s a b c1 c2 l Hl Hr IH].
    - constructor.
    - apply reaches_left; auto. unfold before in Hl. apply Rgeb_false in Hl. lra.
    - apply reaches_right; auto. unfold before in Hl. apply Rgeb_true in Hl. lra. }
  exists l. split; auto. split; auto. intros l' Hl'.
  eapply reaches_unique; [|exact Hl'|apply Hc; exact Hl]. simpl. intros s A B. lra.
Qed.
Lemma hclf_rowwise t Xq m :
  hrowwise (fun i => INR (clf_predict_leaf (i_post i))) t Xq m (hclf_predict t Xq m) /\
  hrowwise (fun i => Some (clf_posterior_mean (i_post i))) t Xq m (hclf_predict_proba t Xq m).
Proof. split; apply hpredict_rowwise. Qed.
Lemma hreg_rowwise t Xq m : hrowwise (fun i => reg_predict_leaf (i_post i)) t Xq m (hreg_predict t Xq m).
Proof. apply hpredict_rowwise. Qed.

Lemma hclf_leaf {C} (pre : C -> list R) srt cands k prior h d t Xq m q :
  hclf_setting srt k prior h d -> hclf_fit pre srt cands h d = Ok t -> q < m ->
  exists l, nth_error (hclf_predict_proba t Xq m) q = Some (Some (clf_posterior_mean (i_post l))) /\
    nth_error (hclf_predict t Xq m) q = Some (INR (clf_predict_leaf (i_post l))) /\
    i_post l = add_counts 1 prior (htargets d (hleaf_mates d t Xq q)) /\ clf_pok k (i_post l) /\
    Forall (clf_yok k) (htargets d (hleaf_mates d t Xq q)).
Proof.
  intros H E Hq. pose proof (hclf_nodes pre srt cands k prior h d t H E) as Hn.
  destruct (hpredict_value t Xq m q (fun i => Some (clf_posterior_mean (i_post i))) None Hq) as (l & Hl & El).
  destruct (hpredict_value t Xq m q (fun i => INR (clf_predict_leaf (i_post i))) 0%R Hq) as (l' & Hl' & El').
  assert (l' = l) as ->. { eapply reaches_unique; [|exact Hl'|exact Hl]. intros s A B; simpl in *; congruence. }
  pose proof (hevery_node_mates d t _ Xq q l Hn Hl) as (Hne & _ & Hpost & _). simpl in Hpost.
  apply hclf_parts in H as (_ & _ & Hd & _ & Hok & Hk & Hy).
  exists l. split; auto. split; auto. split; auto. split.
  - rewrite Hpost. eapply add_counts_pos; eauto; lra.
  - apply rows_Yok; auto. intros i Hi. unfold hleaf_mates, same_leaf in Hi. apply filter_In in Hi as [Hi _].
    apply in_seq in Hi. lia.
Qed.
Lemma hclf_proba_frequency {C} (pre : C -> list R) srt cands k prior h d t Xq m q c :
  hclf_setting srt k prior h d -> hclf_fit pre srt cands h d = Ok t -> q < m -> c < k ->
  let mates := hleaf_mates d t Xq q in
  exists p, nth_error (hclf_predict_proba t Xq m) q = Some (Some p) /\ length p = k /\
    nth c p 0%R = ((nth c prior 0 + INR (count_label c (htargets d mates))) / (vsum prior + INR (length mates)))%R.
Proof.
  intros H E Hq Hc mates. destruct (hclf_leaf pre srt cands k prior h d t Xq m q H E Hq) as (l & El & _ & Hpost & Hok & Hy). fold mates in Hpost, Hy.
  apply hclf_parts in H as (_ & _ & _ & _ & (Hlen & Hpos) & Hk & _).
  exists (clf_posterior_mean (i_post l)). split; auto.
  split; [unfold clf_posterior_mean; rewrite map_length, Hpost, add_counts_length; auto|].
  unfold clf_posterior_mean. rewrite Hpost.
  set (ac := add_counts 1 prior (htargets d mates)).
  rewrite (nth_indep _ 0%R (0 / vsum ac)%R) by (rewrite map_length; unfold ac; rewrite add_counts_length; lia).
  rewrite (map_nth (fun a => a / vsum ac)%R). unfold ac. rewrite add_counts_nth by lia.
  rewrite (add_counts_sum k) by auto. unfold htargets. rewrite map_length. f_equal; ring.
Qed.
Lemma hclf_proba_dist {C} (pre : C -> list R) srt cands k prior h d t Xq m q :
  hclf_setting srt k prior h d -> hclf_fit pre srt cands h d = Ok t -> q < m ->
  exists p, nth_error (hclf_predict_proba t Xq m) q = Some (Some p) /\ length p = k /\
    Forall (fun x => (0 < x)%R) p /\ vsum p = 1%R.
Proof.
  intros H E Hq. destruct (hclf_leaf pre srt cands k prior h d t Xq m q H E Hq) as (l & El & _ & _ & Hok & _).
  exists (clf_posterior_mean (i_post l)). split; auto. apply posterior_mean_dist; auto.
  apply hclf_parts in H. tauto.
Qed.
Lemma hclf_first_max {C} (pre : C -> list R) srt cands k prior h d t Xq m q :
  hclf_setting srt k prior h d -> hclf_fit pre srt cands h d = Ok t -> q < m ->
  exists p c, nth_error (hclf_predict_proba t Xq m) q = Some (Some p) /\ nth_error (hclf_predict t Xq m) q = Some (INR c) /\
    c < length p /\ (forall j, j < length p -> (nth j p 0 <= nth c p 0)%R) /\ (forall j, j < c -> (nth j p 0 < nth c p 0)%R).
Proof.
  intros H E Hq. destruct (hclf_leaf pre srt cands k prior h d t Xq m q H E Hq) as (l & El & El' & _ & Hok & _).
  apply hclf_parts in H as (_ & _ & _ & _ & _ & Hk & _).
  destruct (posterior_mean_dist k _ Hok Hk) as (Hlen & _ & _).
  assert (Hs : (0 < vsum (i_post l))%R) by (destruct Hok as [A B]; apply ClfProofs.vsum_pos; auto; destruct (i_post l); simpl in *; congruence).
  exists (clf_posterior_mean (i_post l)), (clf_predict_leaf (i_post l)). split; auto. split; auto.
  unfold clf_predict_leaf. rewrite <- argmax_mean by auto.
  assert (Hne : clf_posterior_mean (i_post l) <> []) by (intros A; rewrite A in Hlen; simpl in Hlen; lia).
  destruct (argmax_R _ Hne) as [Hr Ha]. split; auto. split; intros j Hj.
  - apply Ha; auto.
  - destruct (Ha j ltac:(lia)) as [H1 H2]. destruct H1 as [H1|H1]; auto. specialize (H2 H1). lia.
Qed.
Lemma hreg_mean {C} (pre : C -> list R) srt cands prior h d t Xq m q :
  hreg_setting srt prior h d -> hreg_fit pre srt cands h d = Ok t -> q < m ->
  let mates := hleaf_mates d t Xq q in
  nth_error (hreg_predict t Xq m) q =
    Some ((ng_kappa prior * ng_mu prior + vsum (htargets d mates)) / (ng_kappa prior + INR (length mates)))%R.
Proof.
  intros H E Hq mates. pose proof (hreg_nodes pre srt cands prior h d t H E) as Hn.
  destruct (hpredict_value t Xq m q (fun i => reg_predict_leaf (i_post i)) 0%R Hq) as (l & Hl & El).
  pose proof (hevery_node_mates d t _ Xq q l Hn Hl) as (Hne & _ & Hpost & _). simpl in Hpost. fold mates in Hpost, Hne.
  unfold hreg_predict. rewrite El. unfold reg_predict_leaf. rewrite Hpost. f_equal. unfold ng_update. cbn [ng_mu].
  apply hreg_parts in H as (_ & _ & _ & (Hka & _) & _).
  assert (Hl0 : (0 < INR (length mates))%R) by (apply lt_0_INR; destruct mates; simpl; [congruence|lia]).
  unfold mean, htargets. rewrite map_length. field. lra.
Qed.

(** ** C11 *)
Lemma hclf_structure {C} (pre : C -> list R) srt cands h d t : 0 < hs_n d -> hclf_fit pre srt cands h d = Ok t ->
  i_n_data (info t) = hs_n d /\ counts_ok t /\ levels_ok 0 t /\
  get_n_leaves t = length (leaves t) /\ 1 <= length (leaves t) <= hs_n d /\
  get_depth t = height t /\ height t < hs_n d.
Proof.
  intros Hn E. unfold hclf_fit in E. eapply hyper_structure in E; auto. intros. apply geo_R_excl.
Qed.
Lemma hreg_structure {C} (pre : C -> list R) srt cands h d t : 0 < hs_n d -> hreg_fit pre srt cands h d = Ok t ->
  i_n_data (info t) = hs_n d /\ counts_ok t /\ levels_ok 0 t /\
  get_n_leaves t = length (leaves t) /\ 1 <= length (leaves t) <= hs_n d /\
  get_depth t = height t /\ height t < hs_n d.
Proof.
  intros Hn E. unfold hreg_fit in E. eapply hyper_structure in E; auto. intros. apply geo_R_excl.
Qed.

(** ** C37 and C36 for pairwise different projections *)
Definition all_spread {C} (pre : C -> list R) (cands : list bool -> list C) (prec : R) (d : hset (list R) R) : Prop :=
  forall path c, In c (cands path) -> spread prec (hs_X d) (unit_vec (pre c)) (hrows d).

Lemma recorded_pruned {P} pp ev d (t t' : tree (plane (list R) (list R)) R P) rows : pruned_of t t' ->
  nodes_ok (behind (hs_X d)) (before (hs_X d)) (recorded_evidence pp ev d) rows t ->
  nodes_ok (behind (hs_X d)) (before (hs_X d)) (recorded_evidence pp ev d) rows t'.
Proof. intros H. revert rows. eapply pruned_nodes_ok'; eauto; simpl; auto. Qed.

Lemma hclf_recorded {C} (pre : C -> list R) srt cands k prior h d t : hclf_setting srt k prior h d -> all_spread pre cands (h_prec h) d ->
  hclf_fit pre srt cands h d = Ok t -> every_hnode d t (recorded_evidence (h_pp h) (clf_ev prior) d).
Proof.
  intros H Hsp E. apply hclf_parts in H as (Hs & Hp & Hd & Hpr & Hok & Hk & Hy).
  rewrite <- (hclf_delta pre srt cands h d 0) in E.
  unfold hclf_fit in E. apply hyper_fit_inv in E as (t0 & E0 & Hpo). cbn [with_delta h_pp h_delta h_prior h_prec] in E0.
  eapply recorded_pruned; [exact Hpo|].
  eapply (fit_recorded pre (h_pp h) (h_prec h) Hp _ (clf_tgt (h_pp h) 0) clf_posterior clf_ev (clf_pok k) (clf_yok k)
    (clf_law k (h_pp h) 0 (Rle_refl 0)) (clf_tgt_perm _ _) eq_refl eq_refl (clf_scored _ _) clf_posterior_0 (fun _ _ _ => eq_refl) cands d Hd Hy Hsp srt prior Hs Hok);
    [exact E0|apply hset_rows; auto|rewrite Hpr; reflexivity].
Qed.
Lemma hreg_recorded {C} (pre : C -> list R) srt cands prior h d t : hreg_setting srt prior h d -> all_spread pre cands (h_prec h) d ->
  hreg_fit pre srt cands h d = Ok t -> every_hnode d t (recorded_evidence (h_pp h) (ng_logev prior) d).
Proof.
  intros H Hsp E. pose proof (hreg_prior _ _ _ _ H) as Hpr. apply hreg_parts in H as (Hs & Hp & Hd & Hok & _).
  rewrite <- (hreg_delta pre srt cands h d 0) in E.
  unfold hreg_fit in E. apply hyper_fit_inv in E as (t0 & E0 & Hpo). cbn [with_delta h_pp h_delta h_prior h_prec] in E0.
  eapply recorded_pruned; [exact Hpo|].
  eapply (fit_recorded pre (h_pp h) (h_prec h) Hp _ (reg_tgt (h_pp h) 0) reg_posterior ng_logev reg_pok (fun _ => True)
    (reg_law (h_pp h) 0 (Rle_refl 0)) (reg_tgt_perm _ _) eq_refl eq_refl (reg_scored _ _) reg_posterior_0 (fun _ _ _ => eq_refl) cands d Hd (fun _ _ => I) Hsp srt prior Hs Hok);
    [exact E0|apply hset_rows; auto|exact Hpr].
Qed.

Lemma hclf_reorder {C} (pre : C -> list R) srt srt' cands k prior h d sigma t : hclf_setting srt k prior h d -> sorts Rleb srt' ->
  all_spread pre cands (h_prec h) d -> reordering (hs_n d) sigma ->
  hclf_fit pre srt cands h d = Ok t -> hclf_fit pre srt' cands h (hreorder sigma d) = Ok t.
Proof.
  intros H Hs' Hsp Hsig E. apply hclf_parts in H as (Hs & Hp & Hd & Hpr & Hok & Hk & Hy).
  rewrite <- E. rewrite <- (hclf_delta pre srt cands h d 0), <- (hclf_delta pre srt' cands h _ 0).
  unfold hclf_fit, hyper_fit. cbn [with_delta h_pp h_delta h_prior h_prec h_prune hreorder hs_n hs_dim hs_X hs_y].
  rewrite (fit_reorder pre (h_prec h) Hp _ (clf_tgt (h_pp h) 0) clf_posterior (clf_pok k) (clf_yok k)
    (clf_law k (h_pp h) 0 (Rle_refl 0)) (clf_tgt_perm _ _) eq_refl eq_refl clf_posterior_0 (fun _ _ _ => eq_refl) cands d Hd Hy Hsp srt srt' Hs Hs' sigma
    (Datatypes.S (hs_n d)) prior 0 [] (h_prior h) (seq 0 (hs_n d)) (seq 0 (hs_n d)) Hok (hset_rows d Hd) Hsig); [reflexivity|].
  rewrite Hpr. reflexivity.
Qed.
Lemma hreg_reorder {C} (pre : C -> list R) srt srt' cands prior h d sigma t : hreg_setting srt prior h d -> sorts Rleb srt' ->
  all_spread pre cands (h_prec h) d -> reordering (hs_n d) sigma ->
  hreg_fit pre srt cands h d = Ok t -> hreg_fit pre srt' cands h (hreorder sigma d) = Ok t.
Proof.
  intros H Hs' Hsp Hsig E. pose proof (hreg_prior _ _ _ _ H) as Hpr. apply hreg_parts in H as (Hs & Hp & Hd & Hok & _).
  rewrite <- E. rewrite <- (hreg_delta pre srt cands h d 0), <- (hreg_delta pre srt' cands h _ 0).
  unfold hreg_fit, hyper_fit. cbn [with_delta h_pp h_delta h_prior h_prec h_prune hreorder hs_n hs_dim hs_X hs_y].
  rewrite (fit_reorder pre (h_prec h) Hp _ (reg_tgt (h_pp h) 0) reg_posterior reg_pok (fun _ => True)
    (reg_law (h_pp h) 0 (Rle_refl 0)) (reg_tgt_perm _ _) eq_refl eq_refl reg_posterior_0 (fun _ _ _ => eq_refl) cands d Hd (fun _ _ => I) Hsp srt srt' Hs Hs' sigma
    (Datatypes.S (hs_n d)) prior 0 [] (h_prior h) (seq 0 (hs_n d)) (seq 0 (hs_n d)) Hok (hset_rows d Hd) Hsig); [reflexivity|].
  exact Hpr.
Qed.

(** ** The objective (C34) *)
Section Kept.
Context {C P : Type}.
Variables (pre : C -> list R) (prec : R) (srt : (nat -> R) -> nat -> list nat).
Hypothesis Hs : sorts Rleb srt.
Variables (pp : R) (L : lik R P R) (T : tgt R P R) (ev : P -> list R -> R) (Pok : P -> Prop) (Yok : R -> Prop).
Hypothesis law : lik_law L T Pok Yok.
Hypothesis Hgt : l_gt L = Rgtb.
Hypothesis Hge : l_ge L = Rgeb.
Hypothesis HT : scored T pp ev.

Lemma kept_gen X y n_dim lvl prior rows ns next steps : n_dim <> 0 -> Pok prior -> (forall i, In i rows -> Yok (y i)) ->
  let r := opt_adaptive (geo_R pre prec srt) L X y n_dim lvl prior rows ns next steps (opt_init (geo_R pre prec srt) ns) [] in
  exists cs, chosen next cs (snd r) /\
    best_kept prec srt (fun l r m => (ln (pp ^ (1 + lvl) / (INR m * INR n_dim)) + ev prior l + ev prior r)%R) X y rows ns
      (map (fun c => unit_vec (pre c)) cs) (snd r) (fst r).
Proof.
  intros Hdim Hp Hyr r. destruct HT as (_ & _ & Hcut).
  assert (Hv : forall nrm v dist pl, outcome prec srt (fun l r m => (ln (pp ^ (1 + lvl) / (INR m * INR n_dim)) + ev prior l + ev prior r)%R) X y rows nrm v dist pl <->
     outcome prec srt (fun l r m => t_cut T lvl prior n_dim m l r) X y rows nrm v dist pl).
  { intros nrm v dist pl. unfold outcome, cut_value. split; intros (m & k & A1 & A2 & A3 & A4 & A5); exists m, k;
      (split; [auto|]; split; [auto|]; split; [rewrite A3, Hcut; auto|]; split; [|exact A5]);
      intros k' Hk'; specialize (A4 k' Hk'); rewrite Hcut in *; auto. }
  pose proof (sorts_permutes srt Hs) as Hperm.
  destruct (adaptive_ok pre prec srt L T Pok Yok law Hgt Hge Hperm X y n_dim Hdim lvl prior Hp rows Hyr ns next steps [] (opt_init (geo_R pre prec srt) ns) [])
    as (cs & Hr & H2 & Hch).
  { eapply run_ok_init. }
  { constructor. }
  { exact I. }
  fold r in Hr, H2, Hch. exists cs. split; auto.
  destruct (run_best_in pre prec srt T X y n_dim lvl prior rows ns cs (fst r) (snd r) Hr H2) as [Hle Hin].
  destruct Hr as (He & Hns & Hb & Hpl). unfold best_kept.
  split; [rewrite He; clear - H2; induction H2; simpl; auto|]. split.
  { clear - H2 Hv. induction H2 as [|c v cs seen H1 H2 IH]; constructor; auto. destruct H1 as [H1|(dd & pl & H1)]; auto.
    right. exists dd, pl. apply Hv. auto. }
  split; auto. split; auto. split; [tauto|].
  destruct (o_plane (fst r)) as [pl|].
  - destruct Hpl as (c & Hc & Ho & Hd). exists (unit_vec (pre c)). split; [apply in_map_iff; eauto|]. split; [apply Hv; auto|].
    intros nrm' dist' pl' Hi Ho'. apply in_map_iff in Hi as (c' & <- & Hi). apply Hv in Ho'. eauto.
  - destruct Hpl as (E1 & E2 & Hno). split; auto. intros nrm v dist pl Hi Ho'. apply in_map_iff in Hi as (c' & <- & Hi). apply Hv in Ho'. eauto.
Qed.
End Kept.

Lemma hclf_kept {C} (pre : C -> list R) prec srt pp delta k prior X y n_dim lvl rows ns next steps :
  sorts Rleb srt -> n_dim <> 0 -> clf_pok k prior -> (forall i, In i rows -> clf_yok k (y i)) ->
  let G := geo_R pre prec srt in
  let r := opt_adaptive G (clf_lik pp delta) X y n_dim lvl prior rows ns next steps (opt_init G ns) [] in
  exists cs, chosen next cs (snd r) /\
    best_kept prec srt (fun l r m => (ln (pp ^ (1 + lvl) / (INR m * INR n_dim)) + clf_ev prior l + clf_ev prior r)%R) X y rows ns
      (map (fun c => unit_vec (pre c)) cs) (snd r) (fst r).
Proof.
  intros Hs Hd Hp Hy G r.
  exact (kept_gen pre prec srt Hs pp (clf_lik pp 0) (clf_tgt pp 0) clf_ev (clf_pok k) (clf_yok k) (clf_law k pp 0 (Rle_refl 0)) eq_refl eq_refl (clf_scored _ _)
    X y n_dim lvl prior rows ns next steps Hd Hp Hy).
Qed.
Lemma hreg_kept {C} (pre : C -> list R) prec srt pp delta prior X y n_dim lvl rows ns next steps :
  sorts Rleb srt -> n_dim <> 0 -> reg_pok prior ->
  let G := geo_R pre prec srt in
  let r := opt_adaptive G (reg_lik pp delta) X y n_dim lvl prior rows ns next steps (opt_init G ns) [] in
  exists cs, chosen next cs (snd r) /\
    best_kept prec srt (fun l r m => (ln (pp ^ (1 + lvl) / (INR m * INR n_dim)) + ng_logev prior l + ng_logev prior r)%R) X y rows ns
      (map (fun c => unit_vec (pre c)) cs) (snd r) (fst r).
Proof.
  intros Hs Hd Hp G r.
  exact (kept_gen pre prec srt Hs pp (reg_lik pp 0) (reg_tgt pp 0) ng_logev reg_pok (fun _ => True) (reg_law pp 0 (Rle_refl 0)) eq_refl eq_refl (reg_scored _ _)
    X y n_dim lvl prior rows ns next steps Hd Hp (fun _ _ => I)).
Qed.

(** ** Optimal nodes *)
Lemma hclf_optimal {C} (pre : C -> list R) srt cands k prior h d t : hclf_setting srt k prior h d -> hclf_fit pre srt cands h d = Ok t ->
  every_hnode d t (fun rows n => (h_prune h = true /\ exists i, n = Leaf i) \/
    optimal_node pre (h_prec h) srt cands (h_pp h) (clf_ev prior) d rows n).
Proof.
  intros H E. apply hclf_parts in H as (Hs & Hp & Hd & Hpr & Hok & Hk & Hy).
  rewrite <- (hclf_delta pre srt cands h d 0) in E.
  unfold hclf_fit in E. cbn [with_delta h_pp h_delta h_prior h_prec h_prune] in E.
  pose proof (hyper_fit_inv _ _ _ _ _ _ _ _ _ _ E) as (t0 & E0 & Hpo).
  assert (Hn : nodes_ok (behind (hs_X d)) (before (hs_X d)) (optimal_node pre (h_prec h) srt cands (h_pp h) (clf_ev prior) d) (hrows d) t0).
  { eapply (fit_optimal pre (h_pp h) (h_prec h) _ (clf_tgt (h_pp h) 0) clf_posterior clf_ev (clf_pok k) (clf_yok k)
      (clf_law k (h_pp h) 0 (Rle_refl 0)) eq_refl eq_refl (clf_scored _ _) clf_posterior_0 (fun _ _ _ => eq_refl) cands d Hd Hy srt prior Hs Hok);
    [reflexivity|exact E0|apply hset_rows; auto|reflexivity|rewrite Hpr; reflexivity]. }
  unfold every_hnode. destruct (h_prune h) eqn:Epr.
  - eapply nodes_ok_imp in Hn; [eapply pruned_nodes_ok'; [| |exact Hpo|exact Hn]|]; cbv beta; eauto.
    intros rows i s a b c1 c2 c1' c2' [(_ & j & A)|A]; [discriminate|right; exact A].
  - unfold hyper_fit in E. rewrite E0 in E. injection E as <-. eapply nodes_ok_imp; [|exact Hn]. auto.
Qed.
Lemma hreg_optimal {C} (pre : C -> list R) srt cands prior h d t : hreg_setting srt prior h d -> hreg_fit pre srt cands h d = Ok t ->
  every_hnode d t (fun rows n => (h_prune h = true /\ exists i, n = Leaf i) \/
    optimal_node pre (h_prec h) srt cands (h_pp h) (ng_logev prior) d rows n).
Proof.
  intros H E. pose proof (hreg_prior _ _ _ _ H) as Hpr. apply hreg_parts in H as (Hs & Hp & Hd & Hok & _).
  rewrite <- (hreg_delta pre srt cands h d 0) in E.
  unfold hreg_fit in E. cbn [with_delta h_pp h_delta h_prior h_prec h_prune] in E.
  pose proof (hyper_fit_inv _ _ _ _ _ _ _ _ _ _ E) as (t0 & E0 & Hpo).
  assert (Hn : nodes_ok (behind (hs_X d)) (before (hs_X d)) (optimal_node pre (h_prec h) srt cands (h_pp h) (ng_logev prior) d) (hrows d) t0).
  { eapply (fit_optimal pre (h_pp h) (h_prec h) _ (reg_tgt (h_pp h) 0) reg_posterior ng_logev reg_pok (fun _ => True)
      (reg_law (h_pp h) 0 (Rle_refl 0)) eq_refl eq_refl (reg_scored _ _) reg_posterior_0 (fun _ _ _ => eq_refl) cands d Hd (fun _ _ => I) srt prior Hs Hok);
    [reflexivity|exact E0|apply hset_rows; auto|reflexivity|exact Hpr]. }
  unfold every_hnode. destruct (h_prune h) eqn:Epr.
  - eapply nodes_ok_imp in Hn; [eapply pruned_nodes_ok'; [| |exact Hpo|exact Hn]|]; cbv beta; eauto.
    intros rows i s a b c1 c2 c1' c2' [(_ & j & A)|A]; [discriminate|right; exact A].
  - unfold hyper_fit in E. rewrite E0 in E. injection E as <-. eapply nodes_ok_imp; [|exact Hn]. auto.
Qed.

(** ** Unit normals and feature importance *)
Lemma optimal_splits {C P} (pre : C -> list R) prec srt cands pp ev prn d (t : tree (plane (list R) (list R)) R P) :
  0 < hs_dim d -> cands_ok pre cands (hs_dim d) ->
  every_hnode d t (fun rows n => (prn = true /\ exists i, n = Leaf i) \/ optimal_node pre prec srt cands pp ev d rows n) ->
  forall s, In s (splits t) -> length (p_normal (fst (fst s))) = hs_dim d /\ dot (p_normal (fst (fst s))) (p_normal (fst (fst s))) = 1%R /\ (0 <= hgain s)%R.
Proof.
  intros Hd Hc H.
  refine (nodes_ok_splits _ _ _ (fun s => length (p_normal (fst (fst s))) = hs_dim d /\ dot (p_normal (fst (fst s))) (p_normal (fst (fst s))) = 1%R /\ (0 <= hgain s)%R) t _ _ H).
  intros rows i s a b c1 c2 [(_ & j & A)|A]; [discriminate|].
  destruct A as (-> & path & _ & c & dist & Hin & Ho & Hle & _). destruct Ho as (m & k & _ & _ & _ & _ & En & _).
  cbn [fst hgain]. rewrite En. specialize (Hc path c Hin).
  destruct (unit_vec_unit (pre c)) as [U1 U2]; [intros Z; rewrite Z in Hc; simpl in Hc; lia|].
  split; [lia|]. split; auto. cbn [info] in *. lra.
Qed.

Lemma hyper_importance_spec {P} (t : tree (plane (list R) (list R)) R P) n : forall fi, length fi = n ->
  (forall s, In s (splits t) -> length (p_normal (fst (fst s))) = n) ->
  length (hyper_importance t fi) = n /\
  forall f, f < n -> nth f (hyper_importance t fi) 0%R = (nth f fi 0 + hgain_on f t)%R.
Proof.
  induction t as [i|i pl a b c1 IH1 c2 IH2]; intros fi Hl Hs.
  - simpl. split; auto. intros f _. unfold hgain_on. simpl. unfold vsum. simpl. lra.
  - cbn [hyper_importance]. set (fi1 := map2 Rplus fi _).
    assert (Hp : length (p_normal pl) = n) by (apply (Hs (pl, a, b)); left; auto).
    assert (H1 : length fi1 = n /\ forall f, f < n -> nth f fi1 0%R = (nth f fi 0 + (b - a) * Rabs (nth f (p_normal pl) 0))%R).
    { unfold fi1. clear - Hl Hp. revert Hl Hp. generalize (p_normal pl). revert n. induction fi as [|x fi IH]; intros n l Hl Hp; destruct l as [|z l]; simpl in *; subst; try discriminate.
      - split; auto. lia.
      - injection Hp as Hp. destruct (IH (length fi) l eq_refl Hp) as [L1 N1]. split; [auto|]. intros [|f] Hf; auto. apply N1. lia. }
    destruct H1 as [L1 N1].
    destruct (IH1 fi1 L1) as [L2 N2]; [intros s Hin; apply Hs; cbn [splits]; right; apply in_app_iff; auto|].
    destruct (IH2 (hyper_importance c1 fi1) L2) as [L3 N3]; [intros s Hin; apply Hs; cbn [splits]; right; apply in_app_iff; auto|].
    split; auto. intros f Hf. rewrite N3, N2, N1 by auto. unfold hgain_on. cbn [splits map].
    rewrite vsum_cons, map_app, vsum_app. unfold hweight at 3. cbn [hgain fst]. lra.
Qed.

Lemma vsum_nonneg l : (forall x, In x l -> 0 <= x)%R -> (0 <= vsum l)%R.
Proof.
  induction l as [|x l IH]; intros H; [unfold vsum; simpl; lra|]. rewrite vsum_cons.
  assert (0 <= x)%R by (apply H; simpl; auto). assert (0 <= vsum l)%R by (apply IH; intros; apply H; simpl; auto). lra.
Qed.
Lemma vsum_some_pos l x : (forall x, In x l -> 0 <= x)%R -> In x l -> (0 < x)%R -> (0 < vsum l)%R.
Proof.
  induction l as [|z l IH]; intros H Hi Hx; [contradiction|]. rewrite vsum_cons.
  assert (0 <= z)%R by (apply H; simpl; auto). assert (0 <= vsum l)%R by (apply vsum_nonneg; intros; apply H; simpl; auto).
  destruct Hi as [->|Hi]; [lra|]. assert (0 < vsum l)%R; [|lra]. apply IH; auto. intros; apply H; simpl; auto.
Qed.
Lemma unit_entry v : dot v v = 1%R -> exists f, f < length v /\ (nth f v 0 <> 0)%R.
Proof.
  induction v as [|x v IH]; unfold dot; cbn [map2 length]; intros H; [unfold vsum in H; simpl in H; lra|].
  rewrite vsum_cons in H. destruct (Req_EM_T x 0) as [->|Hx]; [|exists 0; split; auto; lia].
  destruct IH as (f & Hf & Hn); [unfold dot; lra|]. exists (Datatypes.S f). split; auto. lia.
Qed.

Lemma himportance_gen {P} (t : tree (plane (list R) (list R)) R P) n : i_n_dim (info t) = Some n ->
  (forall s, In s (splits t) -> length (p_normal (fst (fst s))) = n /\ dot (p_normal (fst (fst s))) (p_normal (fst (fst s))) = 1%R /\ (0 <= hgain s)%R) ->
  (exists s, In s (splits t) /\ (0 < hgain s)%R) ->
  exists v, hyper_feature_importance t = Ok (map Some v) /\ is_himportance n t v.
Proof.
  intros Hn H (s0 & Hs0 & Hg0). unfold hyper_feature_importance. rewrite Hn.
  destruct (hyper_importance_spec t n (repeat 0%R n) (repeat_length _ _)) as [HL HN]; [intros; apply H; auto|].
  set (fi := hyper_importance t (repeat 0%R n)) in *.
  assert (Hfi : fi = map (fun g => hgain_on g t) (seq 0 n)).
  { apply (nth_ext _ _ 0%R 0%R); [rewrite map_length, seq_length; auto|]. intros f Hf. rewrite HL in Hf.
    rewrite HN, nth_repeat0 by auto.
    rewrite (nth_indep _ 0%R (hgain_on 0 t)) by (rewrite map_length, seq_length; auto).
    rewrite (map_nth (fun g => hgain_on g t)), seq_nth by auto. simpl. lra. }
  assert (Hnn : forall f s, In s (splits t) -> (0 <= hweight f s)%R).
  { intros f s Hs. apply Rmult_le_pos; [apply H; auto|apply Rabs_pos]. }
  assert (Hgn : forall f, (0 <= hgain_on f t)%R).
  { intros f. apply vsum_nonneg. intros x Hx. apply in_map_iff in Hx as (s & <- & Hs). auto. }
  assert (Hpos : (0 < vsum fi)%R).
  { destruct (H s0 Hs0) as (Hl & Hu & _). destruct (unit_entry _ Hu) as (f & Hf & Hne). rewrite Hl in Hf.
    apply (vsum_some_pos _ (hgain_on f t)).
    - rewrite Hfi. intros x Hx. apply in_map_iff in Hx as (g & <- & _). auto.
    - rewrite Hfi. apply in_map_iff. exists f. split; auto. apply in_seq. lia.
    - unfold hgain_on. apply (vsum_some_pos _ (hweight f s0)).
      + intros x Hx. apply in_map_iff in Hx as (s & <- & Hs). auto.
      + apply in_map. auto.
      + unfold hweight. apply Rmult_lt_0_compat; auto. apply Rabs_pos_lt. auto. }
  exists (map (fun x => x / vsum fi)%R fi). split.
  - f_equal. rewrite map_map. apply map_ext. intros x. unfold np_div, Reqb. destruct (Req_EM_T (vsum fi) 0); [lra|reflexivity].
  - split; [rewrite map_length; auto|]. split; [rewrite vsum_div; field; lra|].
    intros f Hf. assert (En : nth f (map (fun x => x / vsum fi)%R fi) 0%R = (hgain_on f t / vsum fi)%R).
    { rewrite (nth_indep _ 0%R (0 / vsum fi)%R) by (rewrite map_length; lia).
      rewrite (map_nth (fun x => x / vsum fi)%R). rewrite HN, nth_repeat0 by auto. f_equal. lra. }
    rewrite En, <- Hfi. split; auto. apply Rmult_le_pos; auto. left. apply Rinv_0_lt_compat; auto.
Qed.

Lemma hyper_n_dim {C P} (pre : C -> list R) prec srt (L : lik R P R) post same prn lvl pa cands d t :
  hyper_fit (geo_R pre prec srt) L post same prn lvl pa cands d = Ok t -> i_n_dim (info t) = Some (hs_dim d).
Proof.
  intros E. apply hyper_fit_inv in E as (t0 & E0 & Hp). rewrite (pruned_info _ _ Hp).
  eapply hfit_levels in E0. tauto.
Qed.
Lemma hclf_unit {C} (pre : C -> list R) srt cands k prior h d t : hclf_setting srt k prior h d -> cands_ok pre cands (hs_dim d) ->
  hclf_fit pre srt cands h d = Ok t -> unit_normals (hs_dim d) t /\ (forall s, In s (splits t) -> (0 <= hgain s)%R).
Proof.
  intros H Hc E. assert (Hd : hset_ok d) by apply H.
  assert (Ha := optimal_splits pre (h_prec h) srt cands (h_pp h) (clf_ev prior) (h_prune h) d t ltac:(apply Hd) Hc (hclf_optimal pre srt cands k prior h d t H E)).
  split; [intros pl a b Hin; specialize (Ha _ Hin); simpl in Ha; tauto|]. intros s Hin. apply Ha; auto.
Qed.
Lemma hreg_unit {C} (pre : C -> list R) srt cands prior h d t : hreg_setting srt prior h d -> cands_ok pre cands (hs_dim d) ->
  hreg_fit pre srt cands h d = Ok t -> unit_normals (hs_dim d) t /\ (forall s, In s (splits t) -> (0 <= hgain s)%R).
Proof.
  intros H Hc E. assert (Hd : hset_ok d) by apply H.
  assert (Ha := optimal_splits pre (h_prec h) srt cands (h_pp h) (ng_logev prior) (h_prune h) d t ltac:(apply Hd) Hc (hreg_optimal pre srt cands prior h d t H E)).
  split; [intros pl a b Hin; specialize (Ha _ Hin); simpl in Ha; tauto|]. intros s Hin. apply Ha; auto.
Qed.
Lemma hclf_importance {C} (pre : C -> list R) srt cands k prior h d t : hclf_setting srt k prior h d -> cands_ok pre cands (hs_dim d) ->
  hclf_fit pre srt cands h d = Ok t -> (exists s, In s (splits t) /\ (0 < hgain s)%R) ->
  exists v, hyper_feature_importance t = Ok (map Some v) /\ is_himportance (hs_dim d) t v.
Proof.
  intros H Hc E Hs. assert (Hd : hset_ok d) by apply H. apply himportance_gen; auto; [eapply hyper_n_dim; eauto|].
  apply (optimal_splits pre (h_prec h) srt cands (h_pp h) (clf_ev prior) (h_prune h) d t ltac:(apply Hd) Hc (hclf_optimal pre srt cands k prior h d t H E)).
Qed.
Lemma hreg_importance {C} (pre : C -> list R) srt cands prior h d t : hreg_setting srt prior h d -> cands_ok pre cands (hs_dim d) ->
  hreg_fit pre srt cands h d = Ok t -> (exists s, In s (splits t) /\ (0 < hgain s)%R) ->
  exists v, hyper_feature_importance t = Ok (map Some v) /\ is_himportance (hs_dim d) t v.
Proof.
  intros H Hc E Hs. assert (Hd : hset_ok d) by apply H. apply himportance_gen; auto; [eapply hyper_n_dim; eauto|].
  apply (optimal_splits pre (h_prec h) srt cands (h_pp h) (ng_logev prior) (h_prune h) d t ltac:(apply Hd) Hc (hreg_optimal pre srt cands prior h d t H E)).
Qed.
(** Without a positive gain the importance is 0/0 everywhere. *)
Lemma himportance_nan {P} (t : tree (plane (list R) (list R)) R P) n : i_n_dim (info t) = Some n ->
  (forall s, In s (splits t) -> length (p_normal (fst (fst s))) = n /\ hgain s = 0%R) ->
  hyper_feature_importance t = Ok (repeat None n).
Proof.
  intros Hn H. unfold hyper_feature_importance. rewrite Hn.
  destruct (hyper_importance_spec t n (repeat 0%R n) (repeat_length _ _)) as [HL HN]; [intros; apply H; auto|].
  set (fi := hyper_importance t (repeat 0%R n)) in *.
  assert (Hfi : fi = repeat 0%R n).
  { apply (nth_ext _ _ 0%R 0%R); [rewrite repeat_length; auto|]. intros f Hf. rewrite HL in Hf.
    rewrite HN, nth_repeat0 by auto. rewrite Rplus_0_l. unfold hgain_on.
    assert (forall l, (forall x, In x l -> x = 0%R) -> vsum l = 0%R) as Hz.
    { induction l as [|x l IH]; intros Hl; [reflexivity|]. rewrite vsum_cons, (Hl x), IH; simpl; auto; [lra|]. intros; apply Hl; simpl; auto. }
    apply Hz. intros x Hx. apply in_map_iff in Hx as (s & <- & Hs). unfold hweight. destruct (H s Hs) as [_ ->]. lra. }
  rewrite Hfi, vsum_repeat0. f_equal. clear. induction n; simpl; auto. f_equal; auto. unfold np_div, Reqb. destruct (Req_EM_T 0 0); [auto|lra].
Qed.

(** ** Every fit succeeds *)
Lemma hclf_total {C} (pre : C -> list R) srt cands h d : exists t, hclf_fit pre srt cands h d = Ok t.
Proof. apply hyper_total. intros. eapply geo_R_excl'; eauto. Qed.
Lemma hreg_total {C} (pre : C -> list R) srt cands h d : exists t, hreg_fit pre srt cands h d = Ok t.
Proof. apply hyper_total. intros. eapply geo_R_excl'; eauto. Qed.
