(** * SplitFacts: optimality of the stored splits, justification of leaves, pruning and class
    predictions. *)
From Coq Require Import Permutation.
From Verif Require Import Prelude Lists Tree Perp RealOps Clf Reg Api Spec PredictProofs FitProofs
  StructProofs PruneProofs OptSpec OptProofs OptFit OptNodes ClfSpec ClfProofs RegSpec RegProofs ApiSpec ApiProofs NodeFacts.
Local Open Scope nat_scope.

(** ** Cuts in elementary terms *)
Lemma is_cut_admissible prec d f rows a b :
  is_cut Rleb (gap_R prec) (ts_X d) f rows a b <-> admissible prec d f rows a b.
Proof.
  unfold is_cut, admissible, value_of, gap_R. rewrite Rleb_false, Rgtb_true.
  split; intros (H1 & H2 & H3 & H4 & H5); (repeat split; auto); intros i Hi; specialize (H5 i Hi);
    rewrite ?Rleb_true in *; auto.
Qed.
Lemma n_cuts_admissible prec d f rows m :
  n_cuts Rleb (gap_R prec) (ts_X d) f rows m <-> n_admissible prec d f rows m.
Proof.
  split; intros (cs & H1 & H2 & H3); exists cs; split; auto; split; auto; intros a b; rewrite H3;
    rewrite is_cut_admissible; reflexivity.
Qed.
Lemma right_rows_ltb (d : tset R R) f a rows : right_rows Rleb (ts_X d) f a rows = filter (fun i => Rltb a (ts_X d i f)) rows.
Proof.
  unfold right_rows. apply filter_ext. intros i. destruct (Rltb _ _) eqn:E.
  - apply Rltb_true in E. apply negb_true_iff, Rleb_false. auto.
  - apply Rltb_false in E. apply negb_false_iff, Rleb_true. auto.
Qed.

(** [T] scores cuts as prior weight plus two evidences. *)
Definition scored {P} (T : tgt R P R) (pp : R) (ev : P -> list R -> R) : Prop :=
  t_gt T = Rgt /\
  (forall lvl p ys, t_stop T lvl p ys = (ln (1 - pp ^ (1 + lvl)) + ev p ys)%R) /\
  (forall lvl p n m l r, t_cut T lvl p n m l r = (ln (pp ^ (1 + lvl) / (INR m * INR n)) + ev p l + ev p r)%R).
Lemma clf_scored pp delta : scored (clf_tgt pp delta) pp clf_ev.
Proof. repeat split. Qed.
Lemma reg_scored pp delta : scored (reg_tgt pp delta) pp ng_logev.
Proof. repeat split. Qed.

Section Nodes.
Context {P : Type}.
Variable T : tgt R P R.
Variables pp prec : R.
Variable ev : P -> list R -> R.
Variable dflt : nat -> P.
Variable d : tset R R.
Hypothesis HT : scored T pp ev.
Hypothesis Hprior : forall pa n, t_prior T pa n (ts_dim d) = match pa with Some p => p | None => dflt n end.
Notation optd := (opt Rleb (gap_R prec) mid_R T (ts_X d) (ts_y d) (ts_names d) (ts_dim d)).
Notation optd_child := (opt_child Rleb (gap_R prec) mid_R T (ts_X d) (ts_y d) (ts_names d) (ts_dim d)).

Lemma cand_value lvl p rows f a b v :
  cand Rleb (gap_R prec) T (ts_X d) (ts_y d) (ts_dim d) lvl p rows f a b v <->
  split_value pp prec (ev p) lvl d rows f a b v.
Proof.
  unfold cand, split_value, targets. rewrite is_cut_admissible.
  split; intros (H1 & H2 & m & H3 & ->); split; auto; split; auto; exists m; (split; [apply n_cuts_admissible; auto|]);
    rewrite (proj2 (proj2 HT)), right_rows_ltb; reflexivity.
Qed.

Lemma opt_best lvl pa rows t : optd lvl pa rows t -> best_split_node pp prec ev dflt d rows t.
Proof.
  intros H. destruct H as [lvl pa rows p Hp Hno|lvl pa rows p f a b s nm c1 c2 Hp Hc Hgt Hmax Hnm H1 H2]; [exact I|].
  unfold best_split_node, node_info, node_prior. cbn [i_prior i_level i_n_data sd_val sd_dim].
  rewrite Hprior in Hp. rewrite <- Hp.
  destruct HT as (Eg & Es & _). rewrite Eg, Es in Hgt. rewrite Es. split; [reflexivity|].
  exists a, b. split; [reflexivity|]. split; [apply cand_value; exact Hc|]. split; [exact Hgt|].
  intros f' a' b' v' H. apply cand_value in H. destruct (Hmax _ _ _ _ H) as [M1 M2]. rewrite Eg in M1, M2. split.
  - lra.
  - intros ->. destruct M2 as [M2|[M2 M3]]; [lra|auto|]. right. rewrite Rleb_true in M3. auto.
Qed.

Lemma opt_child_best lvl p rows t : optd_child lvl p rows t -> best_split_node pp prec ev dflt d rows t.
Proof. intros [? ? ? ? H1 H2 H3|? ? ? H]; [eapply opt_best; eauto|exact I]. Qed.

Lemma opt_justified lvl pa rows t : optd lvl pa rows t -> justified_leaf pp prec ev dflt d rows t.
Proof.
  intros H. destruct H as [lvl pa rows p Hp Hno|]; [|exact I].
  unfold justified_leaf, node_info, node_prior. cbn [i_prior i_level i_n_data].
  rewrite Hprior in Hp. rewrite <- Hp. right. right. intros f a b v Hv.
  apply cand_value in Hv. specialize (Hno _ _ _ _ Hv). destruct HT as (Eg & Es & _). rewrite Eg, Es in Hno.
  unfold stop_value, targets. lra.
Qed.

Hypothesis Hmany : forall ys, t_many T ys <-> many ys.
Lemma opt_child_justified lvl p rows t : rows <> [] -> optd_child lvl p rows t -> justified_leaf pp prec ev dflt d rows t.
Proof.
  intros Hne Ho. destruct Ho as [lvl p rows t H1 H2 H3|lvl p rows H]; [eapply opt_justified; eauto|].
  unfold justified_leaf. destruct H as [H|H].
  - left. destruct rows as [|j [|j' l]]; simpl in *; auto; try lia. congruence.
  - right. left. intros j j' Hj Hj'. destruct (Req_EM_T (ts_y d j) (ts_y d j')); auto.
    exfalso. apply H. apply Hmany. exists (ts_y d j), (ts_y d j'). repeat split; auto; apply in_map; auto.
Qed.
End Nodes.

(** Properties of a node that do not depend on what its children look like survive pruning. *)
Lemma pruned_nodes_ok' {D S P} left right (Pr : list nat -> tree D S P -> Prop) :
  (forall rows i s a b c1 c2, Pr rows (Split i s a b c1 c2) -> Pr rows (Leaf i)) ->
  (forall rows i s a b c1 c2 c1' c2', Pr rows (Split i s a b c1 c2) -> Pr rows (Split i s a b c1' c2')) ->
  forall t t', pruned_of t t' -> forall rows, nodes_ok left right Pr rows t -> nodes_ok left right Pr rows t'.
Proof.
  intros HL HS. induction 1 as [i|i s a b c1 c2|i s a b c1 c2 c1' c2' H1 IH1 H2 IH2]; intros rows H.
  - exact H.
  - simpl in *. split; auto. destruct H as [H _]. eapply HL; eauto.
  - simpl in *. destruct H as (H & Ha & Hb). split; [eapply HS; eauto|auto].
Qed.

Lemma nodes_ok_and {D S P} left right (Pr Qr : list nat -> tree D S P -> Prop) t : forall rows,
  nodes_ok left right Pr rows t -> nodes_ok left right Qr rows t ->
  nodes_ok left right (fun r u => Pr r u /\ Qr r u) rows t.
Proof. induction t as [|i s a b c1 IH1 c2 IH2]; simpl; intros rows; intuition. Qed.

Section Fits.
Context {P : Type}.
Variable srt : (nat -> R) -> nat -> list nat.
Variable L : lik R P R.
Variable T : tgt R P R.
Variables pp prec : R.
Variable ev : P -> list R -> R.
Variable dflt : nat -> P.
Variable d : tset R R.
Hypothesis Hsrt : sorts Rleb srt.
Hypothesis Hprec : (0 <= prec)%R.
Hypothesis HT : scored T pp ev.
Hypothesis Hprior : forall pa n, t_prior T pa n (ts_dim d) = match pa with Some p => p | None => dflt n end.
Hypothesis Hmany : forall ys, t_many T ys <-> many ys.
Hypothesis Hd : tset_ok d.
Notation optd := (opt Rleb (gap_R prec) mid_R T (ts_X d) (ts_y d) (ts_names d) (ts_dim d)).

Lemma opt_all_nodes lvl pa t0 : optd lvl pa (all_rows d) t0 ->
  every_node d t0 (fun r u => best_split_node pp prec ev dflt d r u /\ justified_leaf pp prec ev dflt d r u).
Proof.
  intros Ho.
  pose proof (proj1 (opt_nodes Rleb (gap_R prec) mid_R (feat_R prec srt) T (ts_X d) (ts_y d) (ts_names d) (ts_dim d)
     (feat_R_law prec srt Hprec Hsrt) (feat_R_route prec srt Hprec)) _ _ _ _ Ho) as H1.
  pose proof (real_fit_posts srt prec T Hsrt Hprec pa d lvl t0 t0 Hd Ho) as H2.
  unfold every_node in *. eapply nodes_ok_impl; [|eapply nodes_ok_and; [exact H1|apply H2]].
  - cbv beta. intros r u [[(l & pa' & Hu)|(l & p & Hu)] (Hne & _)]; split.
    + eapply opt_best; eauto.
    + eapply opt_justified; eauto.
    + eapply opt_child_best; eauto.
    + eapply opt_child_justified; eauto.
  - clear. induction t0; constructor; auto.
Qed.
End Fits.

(** C09 and C10 for both tree types. *)

Lemma clf_best_splits srt k prior h d t : clf_setting srt k prior h d -> clf_fit srt h d = Ok t ->
  every_node d t (best_split_node (h_pp h) (h_prec h) clf_ev (clf_dflt (ts_dim d)) d).
Proof.
  intros H E. destruct (clf_fit_opt srt k prior h d H) as (t' & t0 & E' & Ho & _ & Hpr).
  rewrite E in E'. injection E' as <-. destruct H as (Hs & (Hpp & Hdel & Hprec) & Hd & _).
  unfold every_node. eapply pruned_nodes_ok'; [| |exact Hpr|].
  - intros. exact I.
  - intros rows i s a b c1 c2 c1' c2' H. exact H.
  - eapply nodes_ok_impl; [|eapply (opt_all_nodes srt (clf_tgt (h_pp h) (h_delta h))); eauto using clf_scored].
    + cbv beta. intros r u [A B]. exact A.
    + intros pa n. reflexivity.
    + intros ys. reflexivity.
Qed.
Lemma reg_best_splits srt prior h d t : reg_setting srt prior h d -> reg_fit srt h d = Ok t ->
  every_node d t (best_split_node (h_pp h) (h_prec h) ng_logev default_ng d).
Proof.
  intros H E. destruct (reg_fit_opt srt prior h d H) as (t' & t0 & E' & Ho & _ & Hpr).
  rewrite E in E'. injection E' as <-. destruct H as (Hs & (Hpp & Hdel & Hprec) & Hd & _).
  unfold every_node. eapply pruned_nodes_ok'; [| |exact Hpr|].
  - intros. exact I.
  - intros rows i s a b c1 c2 c1' c2' H. exact H.
  - eapply nodes_ok_impl; [|eapply (opt_all_nodes srt (reg_tgt (h_pp h) (h_delta h))); eauto using reg_scored].
    + cbv beta. intros r u [A B]. exact A.
    + intros pa n. reflexivity.
    + intros ys. reflexivity.
Qed.

Lemma clf_leaves_justified srt k prior h d t : clf_setting srt k prior h d -> h_prune h = false -> clf_fit srt h d = Ok t ->
  every_node d t (justified_leaf (h_pp h) (h_prec h) clf_ev (clf_dflt (ts_dim d)) d).
Proof.
  intros H Hn E. destruct (clf_fit_opt srt k prior h d H) as (t' & t0 & E' & Ho & Et & _).
  rewrite E in E'. injection E' as <-. rewrite Hn in Et. subst t0. destruct H as (Hs & (Hpp & Hdel & Hprec) & Hd & _).
  unfold every_node. eapply nodes_ok_impl; [|eapply (opt_all_nodes srt (clf_tgt (h_pp h) (h_delta h))); eauto using clf_scored].
  - cbv beta. intros r u [A B]. exact B.
  - intros pa n. reflexivity.
  - intros ys. reflexivity.
Qed.
Lemma reg_leaves_justified srt prior h d t : reg_setting srt prior h d -> h_prune h = false -> reg_fit srt h d = Ok t ->
  every_node d t (justified_leaf (h_pp h) (h_prec h) ng_logev default_ng d).
Proof.
  intros H Hn E. destruct (reg_fit_opt srt prior h d H) as (t' & t0 & E' & Ho & Et & _).
  rewrite E in E'. injection E' as <-. rewrite Hn in Et. subst t0. destruct H as (Hs & (Hpp & Hdel & Hprec) & Hd & _).
  unfold every_node. eapply nodes_ok_impl; [|eapply (opt_all_nodes srt (reg_tgt (h_pp h) (h_delta h))); eauto using reg_scored].
  - cbv beta. intros r u [A B]. exact B.
  - intros pa n. reflexivity.
  - intros ys. reflexivity.
Qed.

(** ** C18: additivity of posteriors *)
Lemma filter_excl_perm {B} (f g : B -> bool) l : (forall x, f x = negb (g x)) ->
  Permutation (filter f l ++ filter g l) l.
Proof.
  intros H. induction l as [|x l IH]; simpl; auto. rewrite H. destruct (g x); simpl.
  - etransitivity; [symmetry; apply Permutation_middle|]. auto.
  - auto.
Qed.

Lemma add_counts_split w p (ys zs : list R) c : (c < length p) ->
  nth c (add_counts w p (ys ++ zs)) 0%R =
  (nth c (add_counts w p ys) 0 + nth c (add_counts w p zs) 0 - nth c p 0)%R.
Proof. intros H. rewrite !add_counts_nth by auto. rewrite count_label_app, plus_INR. ring. Qed.

Lemma additive_nodes k (d : tset R R) prior (t : ctree) : forall rows,
  length prior = k -> Forall (clf_yok k) (targets d rows) ->
  nodes_ok (goes_left (ts_X d)) (goes_right (ts_X d))
    (fun r u => r <> [] /\ i_n_data (info u) = length r /\ i_post (info u) = add_counts 1 prior (targets d r)) rows t ->
  all_nodes (additive_node k prior) t.
Proof.
  induction t as [i|i s a b c1 IH1 c2 IH2]; intros rows Hk HY H.
  - simpl in *. destruct H as ((_ & Hn & Hp) & _). split; auto. unfold additive_node. simpl.
    rewrite Hp, add_counts_length. split; [|auto]. rewrite (add_counts_sum k) by auto.
    unfold targets. rewrite map_length, Hn. ring.
  - cbn [nodes_ok] in H. destruct H as ((_ & Hn & Hp) & H1 & H2).
    pose proof (nodes_ok_root _ _ _ _ _ H1) as (_ & N1 & P1).
    pose proof (nodes_ok_root _ _ _ _ _ H2) as (_ & N2 & P2).
    assert (HYf : forall f : nat -> bool, Forall (clf_yok k) (targets d (filter f rows))).
    { intros f. rewrite Forall_forall in *. intros v Hv. apply in_map_iff in Hv as (j & <- & Hj).
      apply filter_In in Hj. apply HY. apply in_map. tauto. }
    cbn [all_nodes]. split; [|split; [exact (IH1 _ Hk (HYf _) H1)|exact (IH2 _ Hk (HYf _) H2)]].
    unfold additive_node. cbn [info] in *. rewrite Hp, P1, P2, add_counts_length. split; [|split; auto].
    + rewrite (add_counts_sum k) by auto. unfold targets. rewrite map_length, Hn. ring.
    + intros c Hc. rewrite <- add_counts_split by (rewrite Hk; auto).
      f_equal. apply add_counts_perm. unfold targets. rewrite <- map_app. apply Permutation_map.
      symmetry. apply filter_excl_perm. intros j. apply goes_excl.
Qed.

Lemma clf_additive srt k prior h d t : clf_setting srt k prior h d -> h_delta h = 0%R -> clf_fit srt h d = Ok t ->
  all_nodes (additive_node k prior) t.
Proof.
  intros H Hd E. pose proof (clf_nodes0 srt k prior h d t H Hd E) as Hn.
  eapply additive_nodes; [| |exact Hn].
  - apply H.
  - apply targets_all_Yok. eapply clf_setting_Yok; eauto.
Qed.

(** ** C15: pruning and class predictions *)
Lemma argmax_sum k (prior p p1 p2 : list R) w :
  length p = k -> length p1 = k -> length p2 = k -> k <> 0 ->
  (forall c, c < k -> nth c prior 0%R = w) ->
  (forall c, c < k -> nth c p 0%R = (nth c p1 0 + nth c p2 0 - nth c prior 0)%R) ->
  argmax Rgtb p1 = argmax Rgtb p2 -> argmax Rgtb p = argmax Rgtb p1.
Proof.
  intros L L1 L2 Hk Hw Hs He.
  assert (N1 : p1 <> []) by (destruct p1; simpl in *; [lia|congruence]).
  assert (N2 : p2 <> []) by (destruct p2; simpl in *; [lia|congruence]).
  destruct (argmax_R p1 N1) as [R1 A1]. destruct (argmax_R p2 N2) as [R2 A2]. rewrite <- He in A2.
  set (m := argmax Rgtb p1) in *. rewrite L1 in R1.
  apply argmax_unique; [lia|]. intros j Hj. rewrite L in Hj.
  destruct (A1 j ltac:(lia)) as [B1 C1]. destruct (A2 j ltac:(lia)) as [B2 C2].
  rewrite (Hs j Hj), (Hs m R1), (Hw j Hj), (Hw m R1). split; [lra|]. intros E. apply C1. lra.
Qed.

Lemma clf_mergeable srt k prior h d t0 w : clf_setting srt k prior h d -> h_delta h = 0%R ->
  (forall c, c < k -> nth c prior 0%R = w) ->
  all_nodes (additive_node k prior) t0 ->
  mergeable_ok clf_same (fun i => INR (clf_predict_leaf (i_post i))) t0.
Proof.
  intros H Hd Hw Ha. pose proof (clf_setting_k _ _ _ _ _ H) as Hk.
  induction t0 as [i|i s a b c1 IH1 c2 IH2]; [exact I|].
  cbn [all_nodes] in Ha. destruct Ha as ((Hs & Hl & Hc) & H1 & H2).
  cbn [mergeable_ok]. split; [|auto]. intros E. unfold clf_same, clf_predict_leaf in E. apply Nat.eqb_eq in E.
  assert (L1 : length (i_post (info c1)) = k) by (destruct c1; destruct H1 as ((_ & L1 & _) & _); auto).
  assert (L2 : length (i_post (info c2)) = k) by (destruct c2; destruct H2 as ((_ & L2 & _) & _); auto).
  unfold clf_predict_leaf. cbn [info] in *.
  rewrite (argmax_sum k prior (i_post i) (i_post (info c1)) (i_post (info c2)) w Hl L1 L2 Hk Hw Hc E).
  rewrite E. auto.
Qed.

Lemma clf_prune_same srt k prior h d t t' w Xq m : clf_setting srt k prior h d -> h_delta h = 0%R ->
  (forall c, c < k -> nth c prior 0%R = w) ->
  clf_fit srt (mkHyper (h_pp h) (h_prior h) (h_delta h) false (h_prec h)) d = Ok t ->
  clf_fit srt (mkHyper (h_pp h) (h_prior h) (h_delta h) true (h_prec h)) d = Ok t' ->
  clf_predict t' Xq m = clf_predict t Xq m.
Proof.
  intros H Hd Hw E E'.
  set (h0 := mkHyper (h_pp h) (h_prior h) (h_delta h) false (h_prec h)) in *.
  assert (H0 : clf_setting srt k prior h0 d) by (destruct H as (A & B & C); split; [exact A|split; [exact B|exact C]]).
  pose proof (clf_additive srt k prior h0 d t H0 Hd E) as Ha.
  assert (Et : t' = prune_bu clf_same t).
  { unfold clf_fit, perp_fit in E, E'. simpl in E, E'.
    destruct (pfit_root _ _ _ _ _ _ _ _ _) as [t0|]; simpl in E, E'; [|discriminate].
    injection E as <-. rewrite prune_correct in E'. injection E' as <-. auto. }
  subst t'. unfold clf_predict. rewrite !predict_rows_spec. apply map_ext. intros r.
  rewrite prune_lookup; auto.
  - intros s _. apply goes_excl'.
  - eapply clf_mergeable; eauto.
Qed.
