(** * HyperMore: hyperplane versions of C08, C14, C15, C18, C50, C51 and C64. *)
From Coq Require Import Reals Permutation Sorted Lra.
From Verif Require Import Prelude Lists Tree Perp RealOps Clf Reg Api Importance Hyper Spec FitProofs OptSpec OptProofs OptNodes Transport ClfSpec RegSpec
  ApiSpec HyperSpec ClfProofs RegProofs PruneProofs StructProofs NodeFacts SplitFacts PredictProofs PropLemmas ImportanceProofs
  Equiv HyperProofs HyperOpt HyperDist HyperApi HyperLemmas TrainSpec TrainProofs HyperMoreSpec.
Local Open Scope nat_scope.

(** ** C08 *)
Lemma hreg_hull {C} (pre : C -> list R) srt cands prior h d t Xq m q lo hi :
  hreg_setting srt prior h d -> hreg_fit pre srt cands h d = Ok t -> q < m ->
  (lo <= ng_mu prior <= hi)%R -> (forall i, i < hs_n d -> (lo <= hs_y d i <= hi)%R) ->
  exists v, nth_error (hreg_predict t Xq m) q = Some v /\ (lo <= v <= hi)%R.
Proof.
  intros H E Hq Hmu Hy. rewrite (hreg_mean pre srt cands prior h d t Xq m q H E Hq). eexists. split; [reflexivity|].
  apply hreg_parts in H as (_ & _ & _ & (Hk & _) & _).
  assert (HF : Forall (fun v => (lo <= v <= hi)%R) (htargets d (hleaf_mates d t Xq q))).
  { apply rows_Yok; auto. intros i Hi. unfold hleaf_mates, same_leaf in Hi. apply filter_In in Hi as [Hi _]. apply in_seq in Hi. lia. }
  replace (length (hleaf_mates d t Xq q)) with (length (htargets d (hleaf_mates d t Xq q))) by apply map_length.
  set (ys := htargets d (hleaf_mates d t Xq q)) in *. clearbody ys.
  assert (Hs : (INR (length ys) * lo <= vsum ys <= INR (length ys) * hi)%R).
  { clear - HF. induction HF as [|v ys Hv HF IH]; [simpl; unfold vsum; simpl; lra|]. rewrite vsum_cons. cbn [length]. rewrite S_INR. lra. }
  pose proof (pos_INR (length ys)) as Hn.
  assert (ng_kappa prior * lo <= ng_kappa prior * ng_mu prior <= ng_kappa prior * hi)%R by (split; apply Rmult_le_compat_l; lra).
  split.
  - apply (Rmult_le_reg_r (ng_kappa prior + INR (length ys))); [lra|]. unfold Rdiv. rewrite Rmult_assoc, Rinv_l by lra. lra.
  - apply (Rmult_le_reg_r (ng_kappa prior + INR (length ys))); [lra|]. unfold Rdiv. rewrite Rmult_assoc, Rinv_l by lra. lra.
Qed.

(** ** C14 *)
Lemma hfit_pruned {W C N O J E Y P S} (G : geo W C N O J E) (L : lik Y P S) post same lvl pa cands (d : hset W Y) t t' :
  hyper_fit G L post same false lvl pa cands d = Ok t -> hyper_fit G L post same true lvl pa cands d = Ok t' ->
  t' = prune_bu same t /\ irreducible same t'.
Proof.
  unfold hyper_fit. intros A B. destruct (hfit _ _ _ _ _ _ _ _ _ _ _ _) as [t0|]; [|discriminate]. cbn [rbind] in A, B.
  injection A as <-. rewrite prune_correct in B. injection B as <-. split; auto. apply prune_bu_irreducible.
Qed.

(** ** C18 *)
Lemma hadditive_nodes k (d : hset (list R) R) prior (t : hctree) : forall rows,
  length prior = k -> Forall (clf_yok k) (htargets d rows) ->
  nodes_ok (behind (hs_X d)) (before (hs_X d))
    (fun r u => i_n_data (info u) = length r /\ i_post (info u) = add_counts 1 prior (htargets d r)) rows t ->
  all_nodes (hadditive_node k prior) t.
Proof.
  induction t as [i|i s a b c1 IH1 c2 IH2]; intros rows Hk HY H.
  - simpl in *. destruct H as ((Hn & Hp) & _). split; auto. unfold hadditive_node. simpl.
    rewrite Hp, add_counts_length. split; [|auto]. rewrite (add_counts_sum k) by auto.
    unfold htargets. rewrite map_length, Hn. ring.
  - cbn [nodes_ok] in H. destruct H as ((Hn & Hp) & H1 & H2).
    pose proof (nodes_ok_root _ _ _ _ _ H1) as (N1 & P1).
    pose proof (nodes_ok_root _ _ _ _ _ H2) as (N2 & P2).
    assert (HYf : forall f : nat -> bool, Forall (clf_yok k) (htargets d (filter f rows))).
    { intros f. rewrite Forall_forall in *. intros v Hv. apply in_map_iff in Hv as (j & <- & Hj).
      apply filter_In in Hj. apply HY. apply in_map. tauto. }
    cbn [all_nodes]. split; [|split; [exact (IH1 _ Hk (HYf _) H1)|exact (IH2 _ Hk (HYf _) H2)]].
    unfold hadditive_node. cbn [info] in *. rewrite Hp, P1, P2, add_counts_length. split; [|split; auto].
    + rewrite (add_counts_sum k) by auto. unfold htargets. rewrite map_length, Hn. ring.
    + intros c Hc. rewrite <- add_counts_split by (rewrite Hk; auto).
      f_equal. apply add_counts_perm. unfold htargets. rewrite <- map_app. apply Permutation_map.
      symmetry. apply filter_excl_perm. intros j. rewrite before_behind, negb_involutive. auto.
Qed.
Lemma hclf_additive {C} (pre : C -> list R) srt cands k prior h d t : hclf_setting srt k prior h d -> hclf_fit pre srt cands h d = Ok t ->
  all_nodes (hadditive_node k prior) t.
Proof.
  intros H E. pose proof (hclf_nodes pre srt cands k prior h d t H E) as Hn. apply hclf_parts in H as (_ & _ & _ & _ & (Hl & _) & _ & Hy).
  eapply (hadditive_nodes k d); [exact Hl| |].
  - apply (rows_Yok (clf_yok k) d (hrows d)); auto. intros i Hi. apply in_seq in Hi. lia.
  - eapply nodes_ok_imp; [|exact Hn]. cbv beta. tauto.
Qed.

(** ** C15 *)
Lemma hmergeable k prior (t0 : hctree) w : k <> 0 -> (forall c, c < k -> nth c prior 0%R = w) ->
  all_nodes (hadditive_node k prior) t0 ->
  mergeable_ok clf_same (fun i => INR (clf_predict_leaf (i_post i))) t0.
Proof.
  intros Hk Hw Ha. induction t0 as [i|i s a b c1 IH1 c2 IH2]; [exact I|].
  cbn [all_nodes] in Ha. destruct Ha as ((Hs & Hl & Hc) & H1 & H2).
  cbn [mergeable_ok]. split; [|auto]. intros E. unfold clf_same, clf_predict_leaf in E. apply Nat.eqb_eq in E.
  assert (L1 : length (i_post (info c1)) = k) by (destruct c1; destruct H1 as ((_ & L1 & _) & _); auto).
  assert (L2 : length (i_post (info c2)) = k) by (destruct c2; destruct H2 as ((_ & L2 & _) & _); auto).
  unfold clf_predict_leaf. cbn [info] in *.
  rewrite (argmax_sum k prior (i_post i) (i_post (info c1)) (i_post (info c2)) w Hl L1 L2 Hk Hw Hc E).
  rewrite E. auto.
Qed.
Lemma hclf_prune_same {C} (pre : C -> list R) srt cands k prior h d t t' w Xq m : hclf_setting srt k prior h d ->
  (forall c, c < k -> nth c prior 0%R = w) ->
  hclf_fit pre srt cands (mkHyper (h_pp h) (h_prior h) (h_delta h) false (h_prec h)) d = Ok t ->
  hclf_fit pre srt cands (mkHyper (h_pp h) (h_prior h) (h_delta h) true (h_prec h)) d = Ok t' ->
  hclf_predict t' Xq m = hclf_predict t Xq m.
Proof.
  intros H Hw E E'.
  set (h0 := mkHyper (h_pp h) (h_prior h) (h_delta h) false (h_prec h)) in *.
  assert (H0 : hclf_setting srt k prior h0 d) by (exact H).
  pose proof (hclf_additive pre srt cands k prior h0 d t H0 E) as Ha.
  destruct (hfit_pruned _ _ _ _ _ _ _ _ _ _ E E') as [-> _].
  apply hclf_parts in H as (_ & _ & _ & _ & _ & Hk & _).
  unfold hclf_predict. rewrite !predict_rows_spec. apply map_ext. intros r.
  rewrite prune_lookup; auto.
  - intros s _. apply before_behind.
  - eapply hmergeable; eauto.
Qed.

(** ** C64 *)
Lemma hodds_gain {P} pp (ev : list R -> R) (d : hset (list R) R) (t : tree (plane (list R) (list R)) R P) : forall rows,
  nodes_ok (behind (hs_X d)) (before (hs_X d)) (recorded_evidence pp ev d) rows t ->
  htotal_gain t = (hlog_odds pp d rows t + vsum (map (fun g => ev (htargets d g)) (groups (behind (hs_X d)) (before (hs_X d)) rows t)) - ev (htargets d rows))%R.
Proof.
  induction t as [i|i s a b c1 IH1 c2 IH2]; intros rows Hn.
  - unfold htotal_gain. cbn [splits groups map hlog_odds]. rewrite vsum_cons, !vsum_nil. lra.
  - destruct Hn as ((Ha & _ & Hb) & N1 & N2). specialize (IH1 _ N1). specialize (IH2 _ N2).
    unfold htotal_gain in *. cbn [splits map groups hlog_odds]. rewrite vsum_cons, !map_app, !vsum_app', IH1, IH2. cbn [hgain].
    rewrite Ha, Hb. unfold partition_value. lra.
Qed.
Lemma hclf_total_gain {C} (pre : C -> list R) srt cands k prior h d t : hclf_setting srt k prior h d -> all_spread pre cands (h_prec h) d ->
  hclf_fit pre srt cands h d = Ok t ->
  htotal_gain t = (hlog_odds (h_pp h) d (hrows d) t + vsum (map (clf_ev prior) (hleaf_targets d t)) - clf_ev prior (htargets d (hrows d)))%R.
Proof.
  intros H Hs E. unfold hleaf_targets. rewrite map_map. apply hodds_gain. eapply hclf_recorded; eauto.
Qed.
Lemma hreg_total_gain {C} (pre : C -> list R) srt cands prior h d t : hreg_setting srt prior h d -> all_spread pre cands (h_prec h) d ->
  hreg_fit pre srt cands h d = Ok t ->
  htotal_gain t = (hlog_odds (h_pp h) d (hrows d) t + vsum (map (ng_logev prior) (hleaf_targets d t)) - ng_logev prior (htargets d (hrows d)))%R.
Proof.
  intros H Hs E. unfold hleaf_targets. rewrite map_map. apply hodds_gain. eapply hreg_recorded; eauto.
Qed.
