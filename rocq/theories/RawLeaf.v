(** * RawLeaf: prior and posterior stored in the leaves of classification trees, for every delta (C47). *)
From Coq Require Import Permutation Reals Lra.
From Verif Require Import Prelude Lists Tree Perp RealOps Clf Reg Api Spec PredictProofs FitProofs
  StructProofs PruneProofs OptSpec OptProofs OptFit OptNodes ClfSpec ClfProofs RegSpec RegProofs ApiSpec ApiProofs NodeFacts SplitFacts ImportanceProofs.
Local Open Scope nat_scope.

(** Below the root exactly the nodes with several target values were fitted. *)
Definition fitted_iff (d : tset R R) (r : list nat) (u : ctree) : Prop := i_n_dim (info u) = None <-> ~ many (targets d r).
Notation below d Pr := (nodes_ok (goes_left (ts_X d)) (goes_right (ts_X d)) Pr).
Definition children_ok (d : tset R R) (rows : list nat) (t : ctree) : Prop :=
  match t with
  | Leaf _ => True
  | Split _ s _ _ c1 c2 => below d (fitted_iff d) (filter (goes_left (ts_X d) s) rows) c1 /\ below d (fitted_iff d) (filter (goes_right (ts_X d) s) rows) c2
  end.

Section Fit.
Variables (pp delta prec : R) (srt : (nat -> R) -> nat -> list nat) (d : tset R R).
Hypothesis Hsrt : sorts Rleb srt.
Hypothesis Hprec : (0 <= prec)%R.
Notation T := (clf_tgt pp delta).
Notation optd := (opt Rleb (gap_R prec) mid_R T (ts_X d) (ts_y d) (ts_names d) (ts_dim d)).
Notation optd_child := (opt_child Rleb (gap_R prec) mid_R T (ts_X d) (ts_y d) (ts_names d) (ts_dim d)).

Lemma opt_children : (forall lvl pa rows t, optd lvl pa rows t -> children_ok d rows t) /\
  (forall lvl p rows t, optd_child lvl p rows t -> below d (fitted_iff d) rows t).
Proof.
  apply opt_mutind.
  - intros. exact I.
  - intros lvl pa rows prior f a b s nm c1 c2 Hp Hc Hgt Hmax Hnm H1 IH1 H2 IH2. destruct Hc as (_ & Hcut & _).
    destruct (cut_routes_rows Rleb (gap_R prec) mid_R (feat_R prec srt) (ts_X d) (feat_R_law prec srt Hprec Hsrt) (feat_R_route prec srt Hprec) f nm rows a b Hcut) as [E1 E2].
    cbn [children_ok]. split.
    + refine (eq_ind_r (fun r => below d (fitted_iff d) r c1) IH1 _). exact E1.
    + refine (eq_ind_r (fun r => below d (fitted_iff d) r c2) IH2 _). exact E2.
  - intros lvl p rows t Hl Hm Ho IH.
    assert (fitted_iff d rows t) as Hr.
    { unfold fitted_iff. rewrite (proj1 (opt_ndim Rleb (gap_R prec) mid_R T (ts_X d) (ts_y d) (ts_names d) (ts_dim d)) _ _ _ _ Ho). split; [discriminate|]. intros H. destruct (H Hm). }
    destruct t as [i|i s a b c1 c2]; cbn [nodes_ok]; split; [exact Hr|exact I|exact Hr|exact IH].
  - intros lvl p rows Hor. cbn. split; [|exact I]. split; [|reflexivity]. intros _ (a & b & Ha & Hb & Hab). destruct Hor as [Hl|Hn]; [|apply Hn; now exists a, b].
    unfold targets in *. destruct rows as [|j [|j' l]]; cbn in *; try lia; intuition congruence.
Qed.
End Fit.

Lemma children_pruned d t t' : pruned_of t t' -> forall rows, children_ok d rows t -> children_ok d rows t'.
Proof.
  assert (forall t t', pruned_of t t' -> forall rows, below d (fitted_iff d) rows t -> below d (fitted_iff d) rows t') as Hp.
  { apply pruned_nodes_ok'; intros; assumption. }
  intros H. destruct H as [i|i s a b c1 c2|i s a b c1 c2 c1' c2' H1 H2]; intros rows Hc; [exact I|exact I|].
  cbn [children_ok] in *. destruct Hc. split; eapply Hp; eauto.
Qed.

Lemma clf_children srt k prior h d t : clf_setting srt k prior h d -> clf_fit srt h d = Ok t -> children_ok d (all_rows d) t.
Proof.
  intros H E. destruct (clf_fit_opt srt k prior h d H) as (t' & t0 & E' & Ho & _ & Hpr). rewrite E in E'. injection E' as <-.
  destruct H as (Hs & (Hpp & Hdel & Hprec) & Hd & _). eapply children_pruned; [exact Hpr|]. 
  exact (proj1 (opt_children (h_pp h) (h_delta h) (h_prec h) srt d Hs Hprec) _ _ _ _ Ho).
Qed.

(** Prior and posterior of every node. *)
Definition pair_of (delta : R) (k : nat) (d : tset R R) (r : list nat) (u : ctree) : Prop :=
  exists pr, i_prior (info u) = Some pr /\ length pr = k /\ length (i_post (info u)) = k /\
    forall c, c < k -> (nth c (i_post (info u)) 0 - nth c pr 0)%R =
      ((match i_n_dim (info u) with Some _ => 1 | None => 1 - delta end) * INR (count_label c (targets d r)))%R.
Lemma node_data_pair delta k (d : tset R R) : forall (t : ctree) pr q rows, length pr = k -> length q = k ->
  node_data (add_counts 1) (add_counts delta) d (Some pr) q rows t ->
  match i_n_dim (info t) with Some _ => q = pr | None => pr = add_counts delta q (targets d rows) end ->
  below d (pair_of delta k d) rows t.
Proof.
  assert (forall (u : ctree) pr q rows, length pr = k -> length q = k -> i_prior (info u) = Some pr -> i_post (info u) = add_counts 1 q (targets d rows) ->
     match i_n_dim (info u) with Some _ => q = pr | None => pr = add_counts delta q (targets d rows) end -> pair_of delta k d rows u) as Hu.
  { intros u pr q rows L1 L2 E1 E2 E3. exists pr. split; [exact E1|]. split; [exact L1|]. rewrite E2, add_counts_length. split; [exact L2|].
    intros c Hc. rewrite add_counts_nth by lia. destruct (i_n_dim (info u)); subst; [ring|]. rewrite add_counts_nth by lia. ring. }
  induction t as [i|i s a b c1 IH1 c2 IH2]; intros pr q rows L1 L2 H E.
  - destruct H as (E1 & _ & _ & E4 & _). cbn [nodes_ok]. split; [exact (Hu (Leaf i) pr q rows L1 L2 E1 E4 E)|exact I].
  - cbn [node_data] in H. cbv zeta in H. destruct H as (E1 & _ & _ & E4 & H1 & H2). cbn [nodes_ok].
    split; [exact (Hu (Split i s a b c1 c2) pr q rows L1 L2 E1 E4 E)|]. split.
    + refine (IH1 _ _ _ _ _ H1 _); try (rewrite add_counts_length; auto).
      * destruct (i_n_dim (info c1)); [now rewrite add_counts_length|auto].
      * destruct (i_n_dim (info c1)); reflexivity.
    + refine (IH2 _ _ _ _ _ H2 _); try (rewrite add_counts_length; auto).
      * destruct (i_n_dim (info c2)); [now rewrite add_counts_length|auto].
      * destruct (i_n_dim (info c2)); reflexivity.
Qed.

Lemma raw_leaf_exact srt k prior h d t Xq m q : clf_setting srt k prior h d -> clf_fit srt h d = Ok t -> q < m ->
  let ys := targets d (leaf_mates d t Xq q) in
  exists pr po, nth_error (raw_leaf_data t Xq m) q = Some (Some (Some pr, po)) /\ length pr = k /\ length po = k /\
    (splits t = [] \/ many ys -> forall c, c < k -> (nth c po 0 - nth c pr 0)%R = INR (count_label c ys)) /\
    (splits t <> [] -> ~ many ys -> forall c, c < k -> (nth c po 0 - nth c pr 0)%R = ((1 - h_delta h) * INR (count_label c ys))%R).
Proof.
  intros H E Hq ys. pose proof (clf_node_data srt k prior h d t H E) as Hn. pose proof (clf_children srt k prior h d t H E) as Hc.
  pose proof (clf_root_dim srt k prior h d t H E) as Hr. pose proof H as (_ & _ & _ & _ & Hk & _).
  assert (below d (pair_of (h_delta h) k d) (all_rows d) t) as Hp by (eapply node_data_pair; eauto; rewrite Hr; reflexivity).
  assert (every_node d t (fun r u => pair_of (h_delta h) k d r u /\ match u with
     | Leaf i => (splits t = [] -> i_n_dim i <> None) /\ (splits t <> [] -> (i_n_dim i = None <-> ~ many (targets d r))) | _ => True end)) as Ha.
  { unfold every_node. apply nodes_ok_and; [exact Hp|]. destruct t as [i|i s a b c1 c2].
    - cbn. cbn in Hr. split; [|exact I]. split; [intros _; rewrite Hr; discriminate|]. intros H0. destruct (H0 eq_refl).
    - cbn [children_ok] in Hc. cbn [nodes_ok]. split; [exact I|]. destruct Hc as [H1 H2].
      split; (eapply nodes_ok_impl; [|eassumption]; intros r [j|] Hj; [|exact I]; split; [discriminate|intros _; exact Hj]). }
  destruct (predict_mates d t _ Xq m q (fun i => Some (i_prior i, i_post i)) None Ha Hq) as (l & El & (pr & E1 & L1 & L2 & E2) & F1 & F2).
  cbn [info] in *. exists pr, (i_post l). unfold raw_leaf_data. rewrite El, E1. fold ys in E2, F2. split; [reflexivity|]. split; [exact L1|]. split; [exact L2|]. split.
  - intros Hor c Hlt. rewrite E2 by auto. destruct (i_n_dim l) eqn:En; [ring|]. exfalso. destruct (splits t) eqn:Es; [exact (F1 eq_refl eq_refl)|].
    destruct Hor as [Hor|Hor]; [discriminate|]. apply F2 in Hor; [exact Hor|discriminate|reflexivity].
  - intros Hs Hm c Hlt. rewrite E2 by auto. rewrite (proj2 (F2 Hs) Hm). reflexivity.
Qed.
