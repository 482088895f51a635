(** * PropLemmas: composite statements closed in the Properties files. *)
From Coq Require Import Permutation Sorted.
From Verif Require Import Prelude Lists Tree Perp Gamma RealOps Clf Reg Api Spec FitProofs PruneProofs PredictProofs
  OptSpec OptProofs OptFit OptNodes ClfSpec ClfProofs RegSpec RegProofs StructProofs ApiSpec ApiProofs NodeFacts SplitFacts Equiv.
Local Open Scope nat_scope.

(** ** C01 *)
Lemma fit_total {A V Y P S} (F : feat A V) (L : lik Y P S) same prn lvl pa (d : tset A Y) :
  permutes (f_argsort F) -> tset_ok d ->
  exists t, perp_fit F L same prn lvl pa d = Ok t.
Proof. intros Hp Hd. destruct (perp_fit_total F L same prn lvl pa d Hp Hd) as (t & E & _). eauto. Qed.

Lemma pfit_more {A V Y P S NM} (F : feat A V) (L : lik Y P S) X y (names : list NM) fuel : forall k lvl pa idxs t,
  pfit F L X y names fuel lvl pa idxs = Ok t -> pfit F L X y names (k + fuel) lvl pa idxs = Ok t.
Proof.
  induction fuel as [|fuel IH]; intros k lvl pa idxs t E; [discriminate|].
  replace (k + Datatypes.S fuel) with (Datatypes.S (k + fuel)) by lia.
  cbn [pfit] in *. destruct idxs as [|row0 idxs']; [discriminate|].
  destruct (0 <? b_idx _)%Z; [|exact E].
  destruct (nth_error names _); [|exact E].
  destruct (sub_indices _ (firstn _ _)) as [s1|]; [|exact E]. destruct (sub_indices _ (skipn _ _)) as [s2|]; [|exact E].
  cbn [rbind] in *.
  destruct ((1 <? length (hd [] s1)) && _).
  - match type of E with rbind ?r _ = _ => destruct r as [c1|] eqn:E1; [|discriminate] end.
    apply (IH k) in E1. rewrite E1. cbn [rbind] in *.
    destruct ((1 <? length (hd [] s2)) && _); [|exact E].
    match type of E with rbind ?r _ = _ => destruct r as [c2|] eqn:E2; [|discriminate] end.
    apply (IH k) in E2. rewrite E2. exact E.
  - cbn [rbind] in *. destruct ((1 <? length (hd [] s2)) && _); [|exact E].
    match type of E with rbind ?r _ = _ => destruct r as [c2|] eqn:E2; [|discriminate] end.
    apply (IH k) in E2. rewrite E2. exact E.
Qed.

Lemma fit_depth {A V Y P S} (F : feat A V) (L : lik Y P S) lvl pa (d : tset A Y) :
  permutes (f_argsort F) -> tset_ok d ->
  exists t, pfit_root F L (ts_X d) (ts_y d) (ts_names d) lvl pa (ts_n d) (ts_dim d) = Ok t /\
    pfit F L (ts_X d) (ts_y d) (ts_names d) (Nat.max 1 (ts_n d - 1)) lvl pa (root_indices F (ts_X d) (ts_n d) (ts_dim d)) = Ok t.
Proof.
  intros Hp (Hn & Hn64 & Hd).
  destruct (root_indices_wf' F (ts_X d) (ts_n d) (ts_dim d) Hp Hn64) as [Hwf Hlen]; [lia|].
  destruct (pfit_complete_deep F L (ts_X d) (ts_y d) (ts_names d) (Nat.max 1 (ts_n d - 1)) lvl pa _ _ Hwf)
    as (t & E & Hfit); [lia|lia|rewrite seq_length; lia|].
  exists t. split; auto. unfold pfit_root.
  replace (Datatypes.S (ts_n d)) with ((Datatypes.S (ts_n d) - Nat.max 1 (ts_n d - 1)) + Nat.max 1 (ts_n d - 1)) by lia.
  apply pfit_more. exact E.
Qed.

(** The array reads inside the scan succeed: one score per admissible position and an argmax in range. *)
Definition reads_in_range {Y P S} (L : lik Y P S) : Prop :=
  (forall lvl prior n_dim ys ks, length (l_split L lvl prior n_dim ys ks) = length ks) /\
  (forall l, l <> [] -> l_argmax L l < length l).
Lemma map2_length {A B C} (f : A -> B -> C) l : forall m, length l = length m -> length (map2 f l m) = length l.
Proof. induction l as [|a l IH]; intros [|b m]; simpl; intros E; try discriminate; auto. Qed.
Lemma clf_reads pp delta : reads_in_range (clf_lik pp delta).
Proof.
  split.
  - intros lvl prior n_dim ys ks. simpl. unfold clf_split. rewrite map2_length; unfold clf_log_p_data; rewrite !map_length, ?seq_length; auto.
  - intros l Hl. apply argmax_range. auto.
Qed.
Lemma reg_side_length p a b c : length a = length b -> length b = length c -> length (reg_side p a b c) = length a.
Proof. intros H1 H2. unfold reg_side. rewrite map_length, !combine_length. lia. Qed.
Lemma cumsum_from_length acc l : length (cumsum_from acc l) = length l.
Proof. revert acc. induction l as [|a l IH]; intros acc; simpl; auto. Qed.
Lemma reg_reads pp delta : reads_in_range (reg_lik pp delta).
Proof.
  split.
  - intros lvl prior n_dim ys ks. simpl. unfold reg_split.
    set (n := length ys).
    assert (L1 : length (map INR (seq 1 (n - 1))) = n - 1) by (rewrite map_length, seq_length; auto).
    assert (L2 : length (removelast (cumsum ys)) = n - 1) by (rewrite length_removelast; unfold cumsum; rewrite cumsum_from_length; auto).
    assert (L3 : length (cumsum (map (fun y => (y ^ 2)%R) (removelast ys))) = n - 1)
      by (unfold cumsum; rewrite cumsum_from_length, map_length, length_removelast; auto).
    destruct (Nat.eqb (length ks) (n - 1)) eqn:E.
    + apply Nat.eqb_eq in E. rewrite map2_length; rewrite !reg_side_length; rewrite ?map_length in *; auto; lia.
    + rewrite map2_length; rewrite !reg_side_length; rewrite ?map_length in *; auto.
  - intros l Hl. apply argmax_range. auto.
Qed.
Lemma scan_reads {A V Y P S} (F : feat A V) (L : lik Y P S) (X : nat -> nat -> A) (y : nat -> Y) lvl prior n_dim dim row :
  reads_in_range L ->
  let ks := split_positions (f_gap F) (gather (fun i => X i dim) row) in
  ks <> [] ->
  let log_p := l_split L lvl prior n_dim (gather y row) ks in
  exists s k, nth_error log_p (l_argmax L log_p) = Some s /\ nth_error ks (l_argmax L log_p) = Some k /\ 1 <= k < length row.
Proof.
  intros [H1 H2] ks Hne log_p.
  assert (Hr : forall k, In k ks -> 1 <= k < length row).
  { intros k Hk. apply split_positions_range in Hk. unfold gather in Hk. rewrite map_length in Hk. auto. }
  assert (Hl : length log_p = length ks).
  { apply H1. }
  assert (Hlt : l_argmax L log_p < length log_p) by (apply H2; intros E; rewrite E in Hl; destruct ks; simpl in *; congruence).
  destruct (nth_error log_p (l_argmax L log_p)) as [s|] eqn:Es; [|apply nth_error_None in Es; lia].
  destruct (nth_error ks (l_argmax L log_p)) as [k|] eqn:Ek; [|apply nth_error_None in Ek; lia].
  exists s, k. repeat split; auto; apply Hr; eapply nth_error_In; eauto.
Qed.

(** ** C11 *)
Lemma fit_structure {A V Y P S} (F : feat A V) (L : lik Y P S) same prn lvl pa (d : tset A Y) t :
  permutes (f_argsort F) -> tset_ok d -> perp_fit F L same prn lvl pa d = Ok t ->
  i_n_data (info t) = ts_n d /\ counts_ok t /\ levels_ok lvl t /\
  get_n_leaves t = length (leaves t) /\ 1 <= length (leaves t) <= ts_n d /\
  get_depth t = lvl + height t /\ height t < ts_n d.
Proof.
  intros Hp Hd E. destruct (perp_fit_total F L same prn lvl pa d Hp Hd) as (t' & E' & N & _ & C & Lv & H).
  rewrite E in E'. injection E' as <-. destruct Hd as (Hn & _).
  pose proof (height_lt_leaves t). pose proof (leaves_le_data t C).
  split; auto. split; auto. split; auto. split; [apply get_n_leaves_eq|]. split; [lia|]. split; [apply get_depth_eq; auto|auto].
Qed.

(** ** C14 *)
Lemma prune_facts {D S P} (same : ninfo P -> ninfo P -> bool) (t : tree D S P) :
  exists t', prune same t = Ok t' /\ t' = prune_bu same t /\ irreducible same t' /\ prune same t' = Ok t' /\
    pruned_of t t' /\ length (leaves t') <= length (leaves t) /\ height t' <= height t.
Proof.
  exists (prune_bu same t). destruct (pruned_leaves _ _ (prune_bu_pruned same t)) as (H1 & _ & H2).
  split; [apply prune_correct|]. split; auto. split; [apply prune_bu_irreducible|].
  split; [rewrite prune_correct, prune_bu_idem; auto|]. split; [apply prune_bu_pruned|]. auto.
Qed.
Lemma fit_pruned {A V Y P S} (F : feat A V) (L : lik Y P S) same lvl pa (d : tset A Y) t t' :
  perp_fit F L same false lvl pa d = Ok t -> perp_fit F L same true lvl pa d = Ok t' ->
  t' = prune_bu same t /\ irreducible same t'.
Proof.
  intros E E'. destruct (perp_fit_inv _ _ _ _ _ _ _ _ E) as (t0 & E0 & -> & _).
  destruct (perp_fit_inv _ _ _ _ _ _ _ _ E') as (t0' & E0' & -> & _).
  rewrite E0 in E0'. injection E0' as <-. split; auto. apply prune_bu_irreducible.
Qed.

(** ** C22 *)
Lemma predict_rowwise {S P O} (val : ninfo P -> O) (t : tree (pdesc string R) S P) Xq m init :
  rowwise val t Xq m (predict_rows (goes_left Xq) (goes_right Xq) val t m init).
Proof.
  split; [rewrite predict_rows_spec, map_length, seq_length; auto|].
  intros q Hq. destruct (predict_value t Xq m q val init Hq) as (l & Hl & E).
  assert (Hc : forall (u : tree (pdesc string R) S P) w, reaches (fun s => goes_right Xq s q = false) (fun s => goes_right Xq s q = true) u w ->
     reaches (fun s => (Xq q (sd_dim s) < sd_val s)%R) (fun s => (Xq q (sd_dim s) >= sd_val s)%R) u w).
  { clear. induction 1 as [j|j s a b c1 c2 l Hl Hr IH|j s a b c1 c2 l Hl Hr IH].
    - constructor.
    - apply reaches_left; auto. unfold goes_right in Hl. apply Rgeb_false in Hl. auto.
    - apply reaches_right; auto. unfold goes_right in Hl. apply Rgeb_true in Hl. auto. }
  exists l. split; auto. split; auto. intros l' Hl'.
  eapply reaches_unique; [|exact Hl'|apply Hc; exact Hl]. simpl. intros s A B. lra.
Qed.
(** Results for a row of a batch are those of any other batch that contains the same row. *)
Lemma predict_local {S P O} (val : ninfo P -> O) (t : tree (pdesc string R) S P) Xq Xq' m m' q q' init :
  q < m -> q' < m' -> (forall f, Xq q f = Xq' q' f) ->
  nth_error (predict_rows (goes_left Xq) (goes_right Xq) val t m init) q =
  nth_error (predict_rows (goes_left Xq') (goes_right Xq') val t m' init) q'.
Proof.
  intros Hq Hq' E. destruct (predict_rowwise val t Xq m init) as [_ H]. destruct (predict_rowwise val t Xq' m' init) as [_ H'].
  destruct (H q Hq) as (l & Hl & _ & ->). destruct (H' q' Hq') as (l' & _ & Hu & ->).
  f_equal. f_equal. apply Hu. clear -Hl E.
  induction Hl as [j|j s a b c1 c2 l Hl Hr IH|j s a b c1 c2 l Hl Hr IH].
  - constructor.
  - apply reaches_left; auto. rewrite <- E. auto.
  - apply reaches_right; auto. rewrite <- E. auto.
Qed.

(** ** C44 *)
Lemma seq_prob_le_1 k prior ys : clf_pok k prior -> Forall (clf_yok k) ys -> forall before, Forall (clf_yok k) before ->
  (0 < seq_prob prior before ys <= 1)%R.
Proof.
  intros Hp. induction 1 as [|y ys Hy Hys IH]; intros before Hb; simpl; [lra|].
  assert (Hb' : Forall (clf_yok k) (before ++ [y])) by (apply Forall_app; auto).
  specialize (IH _ Hb').
  assert (H : (0 < predictive prior before y <= 1)%R).
  { unfold predictive. destruct Hp as [Hl Hpos]. destruct Hy as (c & Hc & ->). rewrite label_INR.
    assert (Hk : (0 < nth c prior 0 <= vsum prior)%R).
    { rewrite Forall_forall in Hpos. split; [apply Hpos, nth_In; lia|].
      assert (Hv : forall l i, (forall x, In x l -> 0 < x)%R -> i < length l -> (nth i l 0 <= vsum l)%R).
      { clear. induction l as [|a l IH]; intros [|i] Ha Hi; simpl in Hi; try lia; rewrite vsum_cons; simpl.
        - assert (0 <= vsum l)%R; [|lra]. clear -Ha. assert (Hl : forall x, In x l -> (0 < x)%R) by (intros; apply Ha; simpl; auto).
          clear Ha. induction l as [|b l IH]; [unfold vsum; simpl; lra|]. rewrite vsum_cons.
          pose proof (Hl b (or_introl eq_refl)). assert (0 <= vsum l)%R by (apply IH; intros; apply Hl; simpl; auto). lra.
        - pose proof (Ha a (or_introl eq_refl)). specialize (IH i (fun x Hx => Ha x (or_intror Hx)) ltac:(lia)). lra. }
      apply Hv; [|lia]. auto. }
    pose proof (pos_INR (count_label c before)) as H0.
    assert (H1 : (INR (count_label c before) <= INR (length before))%R).
    { apply le_INR. unfold count_label. clear. induction before as [|b l IH]; simpl; auto. destruct (Nat.eqb _ _); simpl; lia. }
    split; [apply Rdiv_lt_0_compat; lra|].
    apply (Rmult_le_reg_r (vsum prior + INR (length before))); [lra|]. unfold Rdiv. rewrite Rmult_assoc, Rinv_l; lra. }
  split; [apply Rmult_lt_0_compat; lra|]. rewrite <- (Rmult_1_l 1). apply Rmult_le_compat; lra.
Qed.
Lemma clf_evidence k prior ys : clf_pok k prior -> Forall (clf_yok k) ys ->
  (multivariate_betaln (clf_posterior 1 prior ys) - multivariate_betaln prior)%R = ln (dm_prob prior ys) /\
  (0 < dm_prob prior ys <= 1)%R /\ (forall ys', Permutation ys ys' -> dm_prob prior ys' = dm_prob prior ys).
Proof.
  intros Hp Hy. split; [|split].
  - rewrite (clf_posterior_add k) by auto. apply (betaln_dm k); auto.
  - apply (seq_prob_le_1 k); auto.
  - intros ys' H. symmetry. apply dm_prob_perm; auto.
Qed.
Lemma reg_evidence p ys : reg_pok p -> ys <> [] ->
  let q := reg_posterior 1 p ys in
  reg_log_p_data p (ng_alpha q) (ng_beta q) (ng_kappa q) (INR (length ys)) = seq_student p ys /\
  (forall zs, seq_student p (ys ++ zs) = seq_student p ys + seq_student q zs)%R /\
  (forall ys', Permutation ys ys' -> seq_student p ys' = seq_student p ys).
Proof.
  intros Hp Hne q.
  assert (Eq : q = ng_update 1 p ys) by (apply reg_posterior_update; auto; lra).
  assert (Hq : reg_pok q) by (rewrite Eq; apply ng_update_ok; auto; lra).
  split; [|split].
  - rewrite <- ng_logev_seq by auto. rewrite <- (reg_log_p_data_logev p ys Hne Hp). cbv zeta.
    rewrite (reg_post_internal_update p ys Hne Hp), Eq. auto.
  - intros zs. rewrite <- !ng_logev_seq by auto. rewrite ng_logev_app by auto. rewrite Eq. auto.
  - intros ys' H. rewrite <- !ng_logev_seq by auto. apply ng_logev_perm. symmetry. auto.
Qed.

(** ** C47 with delta = 0 *)
Lemma node_data_attr {S P} post str (d : tset R R) (q : P) :
  (forall ys, str q ys = q) ->
  forall (t : tree (pdesc string R) S P) rows, node_data post str d (Some q) q rows t ->
  nodes_ok (goes_left (ts_X d)) (goes_right (ts_X d))
    (fun r u => i_prior (info u) = Some q /\ i_post (info u) = post q (targets d r)) rows t.
Proof.
  intros Hstr. induction t as [i|i s a b c1 IH1 c2 IH2]; intros rows H.
  - destruct H as (E1 & E2 & E3 & E4 & _). simpl. auto.
  - cbn [node_data] in H. cbv zeta in H. destruct H as (E1 & E2 & E3 & E4 & H1 & H2).
    rewrite Hstr in H1, H2. cbn [nodes_ok]. split; auto.
    split; [apply IH1|apply IH2].
    + destruct (i_n_dim (info c1)); exact H1.
    + destruct (i_n_dim (info c2)); exact H2.
Qed.
Lemma raw_leaf_counts srt k prior h d t Xq m q :
  clf_setting srt k prior h d -> h_delta h = 0%R -> clf_fit srt h d = Ok t -> q < m ->
  exists pr po, nth_error (raw_leaf_data t Xq m) q = Some (Some (Some pr, po)) /\ length pr = k /\ length po = k /\
    forall c, c < k -> (nth c po 0 - nth c pr 0)%R = INR (count_label c (targets d (leaf_mates d t Xq q))).
Proof.
  intros H Hd E Hq. pose proof (clf_node_data srt k prior h d t H E) as Hn. rewrite Hd in Hn.
  pose proof (node_data_attr _ _ d prior (fun ys => add_counts_0 prior ys) t _ Hn) as Hn'.
  destruct (predict_mates d t _ Xq m q (fun i => Some (i_prior i, i_post i)) None Hn' Hq) as (l & El & E1 & E2).
  simpl in E1, E2. pose proof H as (_ & _ & _ & _ & Hk & _).
  exists prior, (i_post l). unfold raw_leaf_data. rewrite El, E1, E2. rewrite add_counts_length.
  do 3 (split; auto). intros c Hc. rewrite add_counts_nth by lia. ring.
Qed.

(** ** Remaining combinations *)
Lemma scan_reads_both pp delta (X : nat -> nat -> R) y lvl n_dim dim row prec srt :
  let ks := split_positions (f_gap (feat_R prec srt)) (gather (fun i => X i dim) row) in
  ks <> [] ->
  (forall prior, let log_p := l_split (clf_lik pp delta) lvl prior n_dim (gather y row) ks in
     exists s k, nth_error log_p (argmax Rgtb log_p) = Some s /\ nth_error ks (argmax Rgtb log_p) = Some k /\ 1 <= k < length row) /\
  (forall prior, let log_p := l_split (reg_lik pp delta) lvl prior n_dim (gather y row) ks in
     exists s k, nth_error log_p (argmax Rgtb log_p) = Some s /\ nth_error ks (argmax Rgtb log_p) = Some k /\ 1 <= k < length row).
Proof.
  intros ks Hne. split; intros prior.
  - exact (scan_reads (feat_R prec srt) (clf_lik pp delta) X y lvl prior n_dim dim row (clf_reads pp delta) Hne).
  - exact (scan_reads (feat_R prec srt) (reg_lik pp delta) X y lvl prior n_dim dim row (reg_reads pp delta) Hne).
Qed.

Lemma reg_conjugate p ys zs : (0 < ng_kappa p)%R -> (0 < ng_alpha p)%R -> (0 < ng_beta p)%R -> ys <> [] -> zs <> [] ->
  let q := reg_posterior 1 p ys in
  (0 < ng_kappa q)%R /\ (0 < ng_alpha q)%R /\ (0 < ng_beta q)%R /\
  (forall ys', Permutation ys ys' -> reg_posterior 1 p ys' = q) /\
  reg_posterior 1 p (ys ++ zs) = reg_posterior 1 q zs /\ q = ng_update 1 p ys.
Proof.
  intros Hk Ha Hb Hy Hz q. assert (Hp : reg_pok p) by (split; auto).
  assert (Eq : q = ng_update 1 p ys) by (apply reg_posterior_update; auto; lra).
  assert (Hq : reg_pok q) by (rewrite Eq; apply ng_update_ok; auto; lra).
  destruct Hq as (H1 & H2 & H3). do 3 (split; auto). split; [|split; auto].
  - intros ys' H. rewrite Eq. rewrite reg_posterior_update; auto; try lra.
    + apply ng_update_perm. symmetry. auto.
    + intros ->. apply Permutation_sym, Permutation_nil in H. auto.
  - rewrite !reg_posterior_update; auto; try lra.
    + rewrite Eq. apply ng_update_app. auto.
    + split; auto.
    + destruct ys; simpl; congruence.
Qed.

Lemma clf_scale_all srt srt' k prior h d u v t Xq m :
  clf_setting srt k prior h d -> sorts Rleb srt' -> h_prec h = 0%R -> (forall f, 0 < u f)%R ->
  clf_fit srt h d = Ok t ->
  clf_fit srt' h (scale_features u v d) = Ok (scale_thresholds u v t) /\
  clf_predict (scale_thresholds u v t) (scale_X u v Xq) m = clf_predict t Xq m /\
  clf_predict_proba (scale_thresholds u v t) (scale_X u v Xq) m = clf_predict_proba t Xq m.
Proof.
  intros H Hs H0 Hu E. split; [eapply clf_fit_scale; eauto|]. split; apply predict_scale; auto.
Qed.
Lemma reg_scale_all srt srt' prior h d u v t Xq m :
  reg_setting srt prior h d -> sorts Rleb srt' -> h_prec h = 0%R -> (forall f, 0 < u f)%R ->
  reg_fit srt h d = Ok t ->
  reg_fit srt' h (scale_features u v d) = Ok (scale_thresholds u v t) /\
  reg_predict (scale_thresholds u v t) (scale_X u v Xq) m = reg_predict t Xq m.
Proof.
  intros H Hs H0 Hu E. split; [eapply reg_fit_scale; eauto|]. apply predict_scale; auto.
Qed.

Lemma clf_rowwise t Xq m :
  rowwise (fun i => INR (clf_predict_leaf (i_post i))) t Xq m (clf_predict t Xq m) /\
  rowwise (fun i => Some (clf_posterior_mean (i_post i))) t Xq m (clf_predict_proba t Xq m) /\
  rowwise (fun i => Some (i_prior i, i_post i)) t Xq m (raw_leaf_data t Xq m).
Proof. split; [|split]; apply predict_rowwise. Qed.
Lemma reg_rowwise t Xq m :
  rowwise (fun i => reg_predict_leaf (i_post i)) t Xq m (reg_predict t Xq m) /\
  rowwise (fun i => Some (i_prior i, i_post i)) t Xq m (raw_leaf_data t Xq m).
Proof. split; apply predict_rowwise. Qed.

Lemma gammaln_facts : gammaln 1 = 0%R /\ (forall x, (0 < x)%R -> gammaln (x + 1) = (gammaln x + ln x)%R) /\
  bm_convex gammaln /\
  forall f, (forall x, (0 < x)%R -> f (x + 1)%R = (f x + ln x)%R) -> bm_convex f -> f 1%R = 0%R ->
    forall x, (0 < x)%R -> f x = gammaln x.
Proof.
  split; [apply gammaln_1|]. split; [apply gammaln_succ|]. split; [intros x z t; apply gammaln_convex|apply gammaln_unique].
Qed.
