(** * ConstProofs: fitting a constant target. *)
From Coq Require Import Reals Lra Permutation.
From Verif Require Import Prelude Lists Tree Perp Gamma RealOps Clf Reg Api Spec FitProofs PruneProofs PredictProofs OptSpec OptProofs
  OptFit ClfSpec ClfProofs RegSpec RegProofs ApiSpec ApiProofs NodeFacts SplitFacts Hyper HyperSpec HyperProofs HyperLemmas ConstMath ConstSpec.
Local Open Scope nat_scope.

(** ** Classification: the probability of equal labels is at least the product over two parts *)
Lemma nth_le_vsum c p : Forall (fun a => (0 < a)%R) p -> (0 <= nth c p 0 <= vsum p)%R.
Proof.
  intros H. revert c. induction H as [|a p Ha Hp IH]; intros c.
  - destruct c; cbn; lra.
  - pose proof (IH c) as Hc. pose proof (IH 0) as H0. unfold vsum in *. cbn [fold_right]. destruct c as [|c].
    + cbn [nth]. lra.
    + cbn [nth]. specialize (IH c). lra.
Qed.
Lemma const_count c l : Forall (fun y => y = INR c) l -> count_label c l = length l.
Proof.
  unfold count_label. induction 1 as [|y l -> Hl IH]; auto. cbn [filter]. rewrite label_INR, Nat.eqb_refl. cbn [length]. now rewrite IH.
Qed.
Lemma seq_prob_more k p c ys : clf_pok k p -> c < k -> Forall (fun y => y = INR c) ys ->
  forall b b', Forall (fun y => y = INR c) b -> Forall (fun y => y = INR c) b' -> length b <= length b' ->
  (0 < seq_prob p b ys <= seq_prob p b' ys)%R.
Proof.
  intros (Hl & Hp) Hc. induction 1 as [|y ys -> Hys IH]; intros b b' Hb Hb' Hle; [cbn; lra|]. cbn [seq_prob].
  destruct (IH (b ++ [INR c]) (b' ++ [INR c])) as [I1 I2].
  { apply Forall_app; auto. } { apply Forall_app; auto. } { rewrite !app_length. cbn. lia. }
  unfold predictive. rewrite !label_INR, !const_count by auto. destruct (nth_le_vsum c p Hp) as [A1 A2].
  assert (0 < nth c p 0)%R as A3. { rewrite Forall_forall in Hp. apply Hp, nth_In. lia. }
  pose proof (pos_INR (length b)) as B1. pose proof (le_INR _ _ Hle) as B2.
  assert (0 < (nth c p 0 + INR (length b)) / (vsum p + INR (length b)))%R as D by (apply Rdiv_lt_0_compat; lra).
  split; [apply Rmult_lt_0_compat; auto|]. apply Rmult_le_compat; try lra.
  apply Rmult_le_reg_r with ((vsum p + INR (length b)) * (vsum p + INR (length b')))%R; [apply Rmult_lt_0_compat; lra|].
  replace ((nth c p 0 + INR (length b)) / (vsum p + INR (length b)) * ((vsum p + INR (length b)) * (vsum p + INR (length b'))))%R
    with ((nth c p 0 + INR (length b)) * (vsum p + INR (length b')))%R by (field; lra).
  replace ((nth c p 0 + INR (length b')) / (vsum p + INR (length b')) * ((vsum p + INR (length b)) * (vsum p + INR (length b'))))%R
    with ((nth c p 0 + INR (length b')) * (vsum p + INR (length b)))%R by (field; lra).
  nra.
Qed.
Lemma clf_superadditive k p c l r ys : clf_pok k p -> c < k -> Forall (fun y => y = INR c) ys -> Permutation ys (l ++ r) ->
  (clf_ev p l + clf_ev p r <= clf_ev p ys)%R.
Proof.
  intros Hp Hc Hys Hperm. assert (Forall (fun y => y = INR c) (l ++ r)) as Hlr by (eapply Permutation_Forall; eauto).
  apply Forall_app in Hlr as [Hl Hr]. unfold clf_ev. rewrite (dm_prob_perm p _ _ Hperm). unfold dm_prob. rewrite seq_prob_app. cbn [app].
  pose proof (seq_prob_more k p c l Hp Hc Hl [] [] (Forall_nil _) (Forall_nil _) (le_n _)) as [L1 _].
  pose proof (seq_prob_more k p c r Hp Hc Hr [] l (Forall_nil _) Hl (Nat.le_0_l _)) as [R1 R2].
  rewrite (ln_mult (seq_prob p [] l)) by lra. apply Rplus_le_compat_l. destruct R2 as [R2|R2]; [left; apply ln_increasing; auto|right; now rewrite R2].
Qed.

(** ** When a split cannot pay *)
Lemma split_bound pp lvl m dim (gain loss : R) : (0 < pp < 1)%R -> 1 <= m -> 1 <= dim ->
  (gain <= loss)%R -> (ln (1 - pp ^ (1 + lvl)) + loss < ln (pp ^ (1 + lvl) / (INR m * INR dim)) + gain)%R -> (INR m * INR dim * (1 - pp) < pp)%R.
Proof.
  intros Hpp Hm Hd Hg H. pose proof (lt_0_INR m ltac:(lia)) as Hm'. pose proof (lt_0_INR dim ltac:(lia)) as Hd'.
  assert (0 < pp ^ (1 + lvl) <= pp)%R as [Q1 Q2].
  { split; [apply pow_lt; lra|]. cbn [Nat.add]. rewrite <- tech_pow_Rmult. pose proof (pow_incr pp 1 lvl ltac:(lra)) as Hi. rewrite pow1 in Hi. nra. }
  assert (1 - pp ^ (1 + lvl) < pp ^ (1 + lvl) / (INR m * INR dim))%R as C.
  { apply ln_lt_inv; [lra| |lra]. apply Rdiv_lt_0_compat; auto. apply Rmult_lt_0_compat; auto. }
  set (q := (pp ^ (1 + lvl))%R) in *. set (M := (INR m * INR dim)%R) in *. assert (0 < M)%R by (apply Rmult_lt_0_compat; auto).
  apply (Rmult_lt_compat_r M) in C; auto. replace (q / M * M)%R with q in C by (field; lra). nra.
Qed.
Lemma split_bound_weak pp lvl m dim (gain loss : R) : (0 < pp < 1)%R -> 1 <= m -> 1 <= dim ->
  (gain <= loss)%R -> (ln (1 - pp ^ (1 + lvl)) + loss <= ln (pp ^ (1 + lvl) / (INR m * INR dim)) + gain)%R -> (INR m * INR dim * (1 - pp) <= pp)%R.
Proof.
  intros Hpp Hm Hd Hg H. pose proof (lt_0_INR m ltac:(lia)) as Hm'. pose proof (lt_0_INR dim ltac:(lia)) as Hd'.
  assert (0 < pp ^ (1 + lvl) <= pp)%R as [Q1 Q2].
  { split; [apply pow_lt; lra|]. cbn [Nat.add]. rewrite <- tech_pow_Rmult. pose proof (pow_incr pp 1 lvl ltac:(lra)) as Hi. rewrite pow1 in Hi. nra. }
  assert (0 < INR m * INR dim)%R as HM by (apply Rmult_lt_0_compat; auto).
  assert (1 - pp ^ (1 + lvl) <= pp ^ (1 + lvl) / (INR m * INR dim))%R as C.
  { destruct (Rle_or_lt (1 - pp ^ (1 + lvl)) (pp ^ (1 + lvl) / (INR m * INR dim))) as [?|N]; auto. exfalso.
    apply ln_increasing in N; [lra|]. apply Rdiv_lt_0_compat; auto. }
  set (q := (pp ^ (1 + lvl))%R) in *. set (M := (INR m * INR dim)%R) in *.
  apply (Rmult_le_compat_r M) in C; [|lra]. replace (q / M * M)%R with q in C by (field; lra). nra.
Qed.

Lemma filter_split_perm (f g : nat -> bool) rows : (forall i, g i = negb (f i)) -> Permutation rows (filter f rows ++ filter g rows).
Proof.
  intros H. induction rows as [|i rows IH]; [constructor|]. cbn [filter]. rewrite H. destruct (f i); cbn [negb app].
  - now constructor.
  - apply Permutation_cons_app, IH.
Qed.

(** ** Perpendicular trees *)
Lemma root_bound {P} pp prec (ev : P -> list R -> R) dflt (d : tset R R) i s v1 v2 c1 c2 : (0 < pp < 1)%R ->
  (forall l r, Permutation (targets d (all_rows d)) (l ++ r) -> (ev (node_prior dflt i) l + ev (node_prior dflt i) r <= ev (node_prior dflt i) (targets d (all_rows d)))%R) ->
  best_split_node pp prec ev dflt d (all_rows d) (Split i s v1 v2 c1 c2) ->
  exists m, n_admissible prec d (sd_dim s) (all_rows d) m /\ 1 <= m /\ (INR m * INR (ts_dim d) * (1 - pp) < pp)%R.
Proof.
  intros Hpp Hsup (E & a & b & _ & (Hf & Ha & m & Hm & Ev) & Hgt & _). exists m. split; auto.
  assert (1 <= m) as Hm1. { destruct Hm as (cs & _ & <- & Hin). apply Hin in Ha. destruct cs; [destruct Ha|cbn; lia]. }
  split; auto. rewrite E, Ev in Hgt. unfold stop_value in Hgt.
  eapply (split_bound pp (i_level i) m (ts_dim d)); auto; [lia| |].
  2:{ apply Rgt_lt in Hgt. rewrite Rplus_assoc in Hgt. exact Hgt. }
  apply Hsup. unfold targets. rewrite <- map_app. apply Permutation_map, filter_split_perm. intros j. unfold Rltb, Rleb.
  destruct (Rlt_dec a (ts_X d j (sd_dim s))), (Rle_dec (ts_X d j (sd_dim s)) a); auto; exfalso; lra.
Qed.

Lemma few_cuts_leaf {P} pp prec d (t : tree (pdesc string R) R P) : (0 < pp < 1)%R ->
  few_cuts pp prec d t -> (pp <= INR (ts_dim d) * (1 - pp))%R -> exists i, t = Leaf i.
Proof.
  intros Hpp H Hd. destruct t as [i|i s v1 v2 c1 c2]; [eauto|]. destruct H as (m & _ & Hm & H). exfalso.
  apply le_INR in Hm. change (INR 1) with 1%R in Hm. pose proof (pos_INR (ts_dim d)). nra.
Qed.

Lemma all_equal_const (d : tset R R) c0 : (forall i, i < ts_n d -> ts_y d i = c0) -> Forall (fun y => y = c0) (targets d (all_rows d)).
Proof. intros H. apply Forall_map, Forall_forall. intros i Hi. apply in_seq in Hi. apply H. lia. Qed.

Lemma reg_const_root srt prior h d t c : reg_setting srt prior h d -> reg_fit srt h d = Ok t ->
  (forall i, i < ts_n d -> ts_y d i = c) -> few_cuts (h_pp h) (h_prec h) d t.
Proof.
  intros H E Hc. pose proof (reg_best_splits srt prior h d t H E) as Hb. pose proof (reg_node_data srt prior h d t H E) as Hn.
  destruct t as [i|i s v1 v2 c1 c2]; [exact I|]. destruct Hb as [Hb _]. destruct H as (_ & (Hpp & _) & Hd & Ep & Hok).
  eapply root_bound; eauto. intros l r Hp. destruct Hn as (En & _ & Hlen & _). cbn [info] in En, Hlen.
  replace (node_prior default_ng i) with prior.
  - eapply reg_superadditive; eauto using all_equal_const.
  - rewrite Ep. unfold node_prior. rewrite En, Hlen. unfold all_rows. now rewrite seq_length.
Qed.
Lemma clf_const_root srt k prior h d t c : clf_setting srt k prior h d -> clf_fit srt h d = Ok t ->
  (forall i, i < ts_n d -> ts_y d i = c) -> few_cuts (h_pp h) (h_prec h) d t.
Proof.
  intros H E Hc. pose proof (clf_best_splits srt k prior h d t H E) as Hb. pose proof (clf_node_data srt k prior h d t H E) as Hn.
  destruct t as [i|i s v1 v2 c1 c2]; [exact I|]. destruct Hb as [Hb _]. destruct H as (_ & (Hpp & _) & Hd & Ep & Hk & Hpos & Hy).
  destruct (Hy 0 ltac:(destruct Hd; lia)) as (c' & Hc' & Ey). rewrite Hc in Ey by (destruct Hd; lia). subst c.
  eapply root_bound; eauto. intros l r Hp. destruct Hn as (En & _ & Hlen & _). cbn [info] in En, Hlen.
  replace (node_prior (clf_dflt (ts_dim d)) i) with prior.
  - eapply (clf_superadditive k prior c'); eauto using all_equal_const. split; auto.
  - unfold node_prior. now rewrite En.
Qed.

(** ** Hyperplane trees *)
Lemma sorted_rows_perm srt X (rows : list nat) nrm : sorts Rleb srt -> Permutation rows (sorted_rows srt X rows nrm).
Proof.
  intros Hs. unfold sorted_rows. destruct (Hs (fun j => dot (X (nth j rows 0)) nrm) (length rows)) as [Hp _].
  assert (rows = map (fun j => nth j rows 0) (seq 0 (length rows))) as E.
  { clear. induction rows as [|a rows IH]; auto. cbn [length seq map nth]. f_equal. rewrite <- seq_shift, map_map. exact IH. }
  rewrite E at 1. apply Permutation_map. now apply Permutation_sym.
Qed.
Lemma hroot_leaf {C P} (pre : C -> list R) prec srt cands pp ev (d : hset (list R) R) (t : tree (plane (list R) (list R)) R P) :
  sorts Rleb srt -> (0 < pp < 1)%R -> 0 < hs_dim d ->
  (forall l r, Permutation (htargets d (hrows d)) (l ++ r) -> (ev l + ev r <= ev (htargets d (hrows d)))%R) ->
  (pp < INR (hs_dim d) * (1 - pp))%R ->
  optimal_node pre prec srt cands pp ev d (hrows d) t -> exists i, t = Leaf i.
Proof.
  intros Hs Hpp Hdim Hsup Hlt H. destruct t as [i|i pl v1 v2 c1 c2]; [eauto|]. exfalso. unfold optimal_node in H. cbv zeta in H. cbn [info] in H.
  destruct H as (_ & path & _ & c & dist & _ & (m & k & Hm & Hk & Ev & _) & Hle & _).
  assert (1 <= m) as Hm1. { destruct Hm as (ks & _ & <- & Hin). apply Hin in Hk. destruct ks; [destruct Hk|cbn; lia]. }
  rewrite Ev in Hle. unfold cut_value in Hle. rewrite Rplus_assoc in Hle. eapply split_bound_weak in Hle; auto.
  - apply le_INR in Hm1. change (INR 1) with 1%R in Hm1. pose proof (pos_INR (hs_dim d)). nra.
  - apply Hsup. unfold htargets. rewrite <- map_app, firstn_skipn. apply Permutation_map, sorted_rows_perm, Hs.
Qed.
Lemma all_equal_hconst (d : hset (list R) R) c0 : (forall i, i < hs_n d -> hs_y d i = c0) -> Forall (fun y => y = c0) (htargets d (hrows d)).
Proof. intros H. apply Forall_map, Forall_forall. intros i Hi. apply in_seq in Hi. apply H. lia. Qed.
Lemma hreg_const_leaf {C} (pre : C -> list R) srt cands prior h d t c : hreg_setting srt prior h d -> hreg_fit pre srt cands h d = Ok t ->
  (forall i, i < hs_n d -> hs_y d i = c) -> (h_pp h < INR (hs_dim d) * (1 - h_pp h))%R -> exists i, t = Leaf i.
Proof.
  intros H E Hc Hlt. pose proof (hreg_optimal pre srt cands prior h d t H E) as Ho. destruct H as (Hs & Hpp & _ & (Hn & Hd & _) & _ & Hok).
  assert ((h_prune h = true /\ exists i, t = Leaf i) \/ optimal_node pre (h_prec h) srt cands (h_pp h) (ng_logev prior) d (hrows d) t) as [[_ Hl]|Ho2].
  { destruct t; exact (proj1 Ho). }
  - exact Hl.
  - eapply hroot_leaf; eauto. intros l r Hp. eapply reg_superadditive; eauto using all_equal_hconst.
Qed.
Lemma hclf_const_leaf {C} (pre : C -> list R) srt cands k prior h d t c : hclf_setting srt k prior h d -> hclf_fit pre srt cands h d = Ok t ->
  (forall i, i < hs_n d -> hs_y d i = c) -> (h_pp h < INR (hs_dim d) * (1 - h_pp h))%R -> exists i, t = Leaf i.
Proof.
  intros H E Hc Hlt. pose proof (hclf_optimal pre srt cands k prior h d t H E) as Ho. destruct H as (Hs & Hpp & _ & (Hn & Hd & _) & _ & Hk & Hpos & Hy).
  destruct (Hy 0 Hn) as (c' & Hc' & Ey). rewrite Hc in Ey by auto. subst c.
  assert ((h_prune h = true /\ exists i, t = Leaf i) \/ optimal_node pre (h_prec h) srt cands (h_pp h) (clf_ev prior) d (hrows d) t) as [[_ Hl]|Ho2].
  { destruct t; exact (proj1 Ho). }
  - exact Hl.
  - eapply hroot_leaf; eauto. intros l r Hp. eapply (clf_superadditive k prior c'); eauto using all_equal_hconst. split; auto.
Qed.

(** ** Predictions of a single leaf *)
Lemma leaf_predict {D S P O} l r (val : ninfo P -> O) (i : ninfo P) m o : predict_rows l r val (@Leaf D S P i) m o = repeat (val i) m.
Proof. rewrite predict_rows_spec. cbn [lookup]. generalize 0. induction m as [|m IH]; intros a; [reflexivity|]. cbn. now rewrite IH. Qed.

Lemma reg_const_predict srt prior h d t c : reg_setting srt prior h d -> reg_fit srt h d = Ok t ->
  (forall i, i < ts_n d -> ts_y d i = c) -> (h_pp h <= INR (ts_dim d) * (1 - h_pp h))%R ->
  (exists i, t = Leaf i) /\ forall Xq m, reg_predict t Xq m =
    repeat ((ng_kappa prior * ng_mu prior + INR (ts_n d) * c) / (ng_kappa prior + INR (ts_n d)))%R m.
Proof.
  intros H E Hc Hle. pose proof (reg_const_root srt prior h d t c H E Hc) as Hf. pose proof (reg_node_data srt prior h d t H E) as Hpost.
  pose proof H as (_ & (Hpp & _) & (Hn & _) & _ & Hk & _). destruct (few_cuts_leaf _ _ _ _ Hpp Hf Hle) as (i & ->). destruct Hpost as (_ & _ & _ & Hpost & _). split; [eauto|].
  intros Xq m. unfold reg_predict. rewrite leaf_predict. f_equal. unfold reg_predict_leaf. cbn [info] in Hpost. rewrite Hpost. clear - Hc Hn Hk.
  pose proof (all_equal_const d c Hc) as Ha. unfold ng_update. cbn [ng_mu]. unfold mean. rewrite (const_sum c) by auto.
  assert (length (targets d (all_rows d)) = ts_n d) as -> by (unfold targets, all_rows; now rewrite map_length, seq_length).
  pose proof (lt_0_INR _ Hn). field. lra.
Qed.
Lemma clf_const_predict srt k prior h d t c : clf_setting srt k prior h d -> clf_fit srt h d = Ok t ->
  (forall i, i < ts_n d -> ts_y d i = c) -> (h_pp h <= INR (ts_dim d) * (1 - h_pp h))%R ->
  (exists i, t = Leaf i) /\ forall Xq m, clf_predict t Xq m = repeat (INR (argmax Rgtb (add_counts 1 prior (repeat c (ts_n d))))) m.
Proof.
  intros H E Hc Hle. pose proof (clf_const_root srt k prior h d t c H E Hc) as Hf. pose proof (clf_node_data srt k prior h d t H E) as Hpost.
  pose proof H as (_ & (Hpp & _) & (Hn & _) & _). destruct (few_cuts_leaf _ _ _ _ Hpp Hf Hle) as (i & ->). destruct Hpost as (_ & _ & _ & Hpost & _). split; [eauto|].
  intros Xq m. unfold clf_predict. rewrite leaf_predict. unfold clf_predict_leaf. cbn [info] in Hpost. rewrite Hpost.
  replace (targets d (all_rows d)) with (repeat c (ts_n d)); auto.
  pose proof (all_equal_const d c Hc) as Ha. assert (length (targets d (all_rows d)) = ts_n d) as <- by (unfold targets, all_rows; now rewrite map_length, seq_length).
  clear - Ha. induction Ha as [|y l -> Hl IH]; [reflexivity|]. cbn. now rewrite IH.
Qed.
Lemma hreg_const_predict {C} (pre : C -> list R) srt cands prior h d t c : hreg_setting srt prior h d -> hreg_fit pre srt cands h d = Ok t ->
  (forall i, i < hs_n d -> hs_y d i = c) -> (h_pp h < INR (hs_dim d) * (1 - h_pp h))%R ->
  exists i, t = Leaf i /\ forall Xq m, hreg_predict t Xq m = repeat (ng_mu (i_post i)) m.
Proof.
  intros H E Hc Hlt. destruct (hreg_const_leaf pre srt cands prior h d t c H E Hc Hlt) as (i & ->). exists i. split; auto.
  intros Xq m. exact (leaf_predict _ _ _ i m _).
Qed.
Lemma hclf_const_predict {C} (pre : C -> list R) srt cands k prior h d t c : hclf_setting srt k prior h d -> hclf_fit pre srt cands h d = Ok t ->
  (forall i, i < hs_n d -> hs_y d i = c) -> (h_pp h < INR (hs_dim d) * (1 - h_pp h))%R ->
  exists i, t = Leaf i /\ forall Xq m, hclf_predict t Xq m = repeat (INR (argmax Rgtb (i_post i))) m.
Proof.
  intros H E Hc Hlt. destruct (hclf_const_leaf pre srt cands k prior h d t c H E Hc Hlt) as (i & ->). exists i. split; auto.
  intros Xq m. exact (leaf_predict _ _ _ i m _).
Qed.
