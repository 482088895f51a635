(** * ApiProofs: consequences of optimality at the level of the public entry points. *)
From Coq Require Import Permutation.
From Verif Require Import Prelude Lists Tree Perp RealOps Clf Reg Api Spec PredictProofs FitProofs
  StructProofs PruneProofs OptSpec OptProofs OptFit OptNodes ClfSpec ClfProofs RegSpec RegProofs ApiSpec.
Local Open Scope nat_scope.

(** ** Generic *)
Section Generic.
Context {A V Y P S : Type}.
Variable F : feat A V.
Variable L : lik Y P S.
Variable same : ninfo P -> ninfo P -> bool.

Lemma perp_fit_inv do_prune lvl pa (d : tset A Y) t :
  perp_fit F L same do_prune lvl pa d = Ok t ->
  exists t0, pfit_root F L (ts_X d) (ts_y d) (ts_names d) lvl pa (ts_n d) (ts_dim d) = Ok t0 /\
    t = (if do_prune then prune_bu same t0 else t0) /\ pruned_of t0 t.
Proof.
  unfold perp_fit. destruct (pfit_root _ _ _ _ _ _ _ _ _) as [t0|e]; simpl; [|discriminate].
  intros H. exists t0. split; auto. destruct do_prune.
  - rewrite prune_correct in H. injection H as <-. split; auto. apply prune_bu_pruned.
  - injection H as <-. split; auto. clear. induction t0; constructor; auto.
Qed.

Lemma root_indices_wf' X n n_dim : permutes (f_argsort F) -> (N.of_nat n <= 2 ^ 64)%N -> n_dim <> 0 ->
  wf_idx (seq 0 n) (root_indices F X n n_dim) /\ length (root_indices F X n n_dim) = n_dim.
Proof.
  intros Hp Hn Hd. unfold root_indices. split.
  - split; [apply seq_NoDup|]. split; [destruct n_dim; simpl; congruence|].
    rewrite Forall_forall. intros row Hr. apply in_map_iff in Hr as (c & <- & _).
    rewrite (map_ext_in _ (fun i => i)); [rewrite map_id; apply Hp|].
    intros i Hi. apply store_index_id; auto. eapply Permutation_in in Hi; [|apply Hp].
    apply in_seq in Hi. lia.
  - rewrite map_length, seq_length. auto.
Qed.

Lemma perp_fit_total do_prune lvl pa (d : tset A Y) : permutes (f_argsort F) -> tset_ok d ->
  exists t, perp_fit F L same do_prune lvl pa d = Ok t /\
    i_n_data (info t) = ts_n d /\ i_prior (info t) = pa /\ counts_ok t /\ levels_ok lvl t /\ height t < ts_n d.
Proof.
  intros Hp (Hn & Hn64 & Hd).
  destruct (root_indices_wf' (ts_X d) (ts_n d) (ts_dim d) Hp Hn64) as [Hwf Hlen]; [lia|].
  destruct (pfit_complete F L (ts_X d) (ts_y d) (ts_names d) (Datatypes.S (ts_n d)) lvl pa _ _ Hwf) as (t0 & E & Hfit).
  - lia.
  - rewrite seq_length. lia.
  - destruct (proj1 (nfit_struct F L (ts_X d) (ts_y d) (ts_names d)) _ _ _ _ _ Hfit) as (N0 & P0 & C0 & L0).
    rewrite seq_length in N0.
    assert (Ht : exists t, perp_fit F L same do_prune lvl pa d = Ok t).
    { unfold perp_fit, pfit_root. rewrite E. simpl. destruct do_prune; eauto. rewrite prune_correct; eauto. }
    destruct Ht as [t Et]. exists t. split; auto.
    destruct (perp_fit_inv _ _ _ _ _ Et) as (t0' & E' & _ & Hpr). unfold pfit_root in E'. rewrite E in E'.
    injection E' as <-. rewrite (pruned_info _ _ Hpr). repeat split; auto.
    + eapply pruned_counts; eauto.
    + eapply pruned_levels; eauto.
    + destruct (pruned_leaves _ _ Hpr) as (_ & _ & Hh).
      pose proof (height_lt_leaves t0). pose proof (leaves_le_data t0 C0). lia.
Qed.
End Generic.

(** ** Exact features *)
Section Real.
Context {P : Type}.
Variable srt : (nat -> R) -> nat -> list nat.
Variable prec : R.
Variable L : lik R P R.
Variable T : tgt R P R.
Variable Pok : P -> Prop.
Variable Yok : R -> Prop.
Variable same : ninfo P -> ninfo P -> bool.
Hypothesis Hsrt : sorts Rleb srt.
Hypothesis Hprec : (0 <= prec)%R.
Hypothesis HL : lik_law L T Pok Yok.
Hypothesis HT : tgt_perm T.
Notation F := (feat_R prec srt).
Notation opt0 d := (opt Rleb (gap_R prec) mid_R T (ts_X d) (ts_y d) (ts_names d) (ts_dim d)).

Lemma real_fit do_prune lvl pa (d : tset R R) : tset_ok d ->
  (forall i, i < ts_n d -> Yok (ts_y d i)) -> Pok (t_prior T pa (ts_n d) (ts_dim d)) ->
  exists t t0, perp_fit F L same do_prune lvl pa d = Ok t /\ opt0 d lvl pa (all_rows d) t0 /\
     t = (if do_prune then prune_bu same t0 else t0) /\ pruned_of t0 t.
Proof.
  intros (Hn & Hn64 & Hd) HY HP.
  destruct (pfit_root_opt Rleb (gap_R prec) mid_R F L T Pok Yok (ts_X d) (ts_y d) (ts_names d)
             (feat_R_law prec srt Hprec Hsrt) HL HT lvl pa (ts_n d) (ts_dim d) Hn Hn64 Hd HY HP) as (t0 & E & Ho).
  assert (Ht : exists t, perp_fit F L same do_prune lvl pa d = Ok t).
  { unfold perp_fit. rewrite E. simpl. destruct do_prune; eauto. rewrite prune_correct; eauto. }
  destruct Ht as [t Et]. destruct (perp_fit_inv _ _ _ _ _ _ _ _ Et) as (t0' & E' & Htt & Hpr).
  rewrite E in E'. injection E' as <-. exists t, t0. auto.
Qed.

Lemma real_fit_inv do_prune lvl pa (d : tset R R) t : tset_ok d ->
  (forall i, i < ts_n d -> Yok (ts_y d i)) -> Pok (t_prior T pa (ts_n d) (ts_dim d)) ->
  perp_fit F L same do_prune lvl pa d = Ok t ->
  exists t0, opt0 d lvl pa (all_rows d) t0 /\ t = (if do_prune then prune_bu same t0 else t0) /\ pruned_of t0 t.
Proof.
  intros H1 H2 H3 E. destruct (real_fit do_prune lvl pa d H1 H2 H3) as (t' & t0 & E' & Ho).
  rewrite E in E'. injection E' as <-. eauto.
Qed.

Lemma all_rows_ne (d : tset R R) : tset_ok d -> all_rows d <> [].
Proof. intros (H & _). unfold all_rows. destruct (ts_n d); simpl; [lia|congruence]. Qed.

(** Node facts under pruning. *)
Lemma real_fit_posts pa (d : tset R R) lvl t0 t : tset_ok d -> opt0 d lvl pa (all_rows d) t0 -> pruned_of t0 t ->
  every_node d t (fun r u => r <> [] /\ i_n_data (info u) = length r).
Proof.
  intros Hd Ho Hpr. unfold every_node.
  eapply pruned_nodes_ok; [|exact Hpr|].
  - intros rows u u' E. rewrite E. auto.
  - apply (posts_counts F T (ts_X d) (ts_y d) (ts_dim d) t0 pa (t_prior T pa (length (all_rows d)) (ts_dim d))).
    apply (proj1 (opt_posts Rleb (gap_R prec) mid_R F T (ts_X d) (ts_y d) (ts_names d) (ts_dim d)
             (feat_R_law prec srt Hprec Hsrt) (feat_R_route prec srt Hprec)) lvl); auto.
    apply all_rows_ne; auto.
Qed.

Lemma real_fit_posts0 pa (d : tset R R) lvl t0 t q : tset_ok d ->
  opt0 d lvl pa (all_rows d) t0 -> pruned_of t0 t ->
  q = t_prior T pa (ts_n d) (ts_dim d) ->
  (forall ys, t_child_prior T q ys = q) -> (forall n, t_prior T (Some q) n (ts_dim d) = q) ->
  every_node d t (fun r u => r <> [] /\ i_n_data (info u) = length r /\ i_post (info u) = t_post T q (targets d r)).
Proof.
  intros Hd Ho Hpr Hq Hc Hp. unfold every_node.
  eapply pruned_nodes_ok; [|exact Hpr|].
  - intros rows u u' E. rewrite E. auto.
  - apply (posts_nodes F T (ts_X d) (ts_y d) (ts_dim d) q Hc Hp t0 pa).
    assert (Hl : length (all_rows d) = ts_n d) by apply seq_length.
    rewrite Hq, <- Hl.
    apply (proj1 (opt_posts Rleb (gap_R prec) mid_R F T (ts_X d) (ts_y d) (ts_names d) (ts_dim d)
             (feat_R_law prec srt Hprec Hsrt) (feat_R_route prec srt Hprec)) lvl); auto.
    apply all_rows_ne; auto.
Qed.
End Real.

Lemma goes_excl X s i : goes_left X s i = negb (goes_right X s i).
Proof.
  unfold goes_left, goes_right. destruct (Rltb _ _) eqn:E.
  - apply Rltb_true in E. symmetry. apply negb_true_iff. apply Rgeb_false. auto.
  - apply Rltb_false in E. symmetry. apply negb_false_iff. apply Rgeb_true. lra.
Qed.
Lemma goes_excl' X s i : goes_right X s i = negb (goes_left X s i).
Proof. rewrite goes_excl, negb_involutive. auto. Qed.

(** Value predicted for row [i] = value of the reached leaf. *)
Lemma predict_value {S P O} (t : tree (pdesc string R) S P) Xq m i (val : ninfo P -> O) init : i < m ->
  exists l, reaches (fun s => goes_right Xq s i = false) (fun s => goes_right Xq s i = true) t l /\
    nth_error (predict_rows (goes_left Xq) (goes_right Xq) val t m init) i = Some (val l).
Proof.
  intros Hi. destruct (lookup_reaches (goes_left Xq) (goes_right Xq) val t i) as (l & Hr & E).
  - intros s _. apply goes_excl'.
  - exists l. split.
    + clear E. induction Hr as [j|j s a b c1 c2 l Hl Hr IH|j s a b c1 c2 l Hl Hr IH].
      * constructor.
      * apply reaches_left; auto. rewrite goes_excl in Hl. apply negb_true_iff; auto.
      * apply reaches_right; auto.
    + rewrite predict_rows_spec, nth_error_map, nth_error_seq.
      apply Nat.ltb_lt in Hi. rewrite Hi. simpl. rewrite E. auto.
Qed.

Lemma every_node_mates {S P} (d : tset R R) (t : tree (pdesc string R) S P) Pr Xq i l :
  every_node d t Pr ->
  reaches (fun s => goes_right Xq s i = false) (fun s => goes_right Xq s i = true) t l ->
  Pr (leaf_mates d t Xq i) (Leaf l).
Proof.
  intros H Hr. unfold every_node in H.
  destruct (nodes_ok_same_leaf _ _ _ (fun s => goes_right Xq s i) t (all_rows d) (goes_excl (ts_X d)) H) as (l' & Hr' & HP).
  assert (l = l') as ->; auto. eapply reaches_unique; [|exact Hr|exact Hr'].
  simpl. intros s Ha Hb. congruence.
Qed.

(** Prediction of a row from node facts. *)
Lemma predict_mates {S P O} (d : tset R R) (t : tree (pdesc string R) S P) Pr Xq m i (val : ninfo P -> O) init :
  every_node d t Pr -> i < m ->
  exists l, nth_error (predict_rows (goes_left Xq) (goes_right Xq) val t m init) i = Some (val l) /\
    Pr (leaf_mates d t Xq i) (Leaf l).
Proof.
  intros H Hi. destruct (predict_value t Xq m i val init Hi) as (l & Hr & E).
  exists l. split; auto. eapply every_node_mates; eauto.
Qed.

(** ** Instances *)
Lemma clf_setting_Pok srt k prior h d : clf_setting srt k prior h d ->
  clf_pok k (t_prior (clf_tgt (h_pp h) (h_delta h)) (h_prior h) (ts_n d) (ts_dim d)).
Proof. intros (_ & _ & _ & Hp & Hk & Hpos & _). rewrite Hp. simpl. split; auto. Qed.
Lemma clf_setting_Yok srt k prior h d : clf_setting srt k prior h d ->
  forall i, i < ts_n d -> clf_yok k (ts_y d i).
Proof. intros (_ & _ & _ & _ & _ & _ & H) i Hi. apply H; auto. Qed.

Lemma clf_fit_opt srt k prior h d : clf_setting srt k prior h d ->
  exists t t0, clf_fit srt h d = Ok t /\
    opt Rleb (gap_R (h_prec h)) mid_R (clf_tgt (h_pp h) (h_delta h)) (ts_X d) (ts_y d) (ts_names d) (ts_dim d)
        0 (h_prior h) (all_rows d) t0 /\
    t = (if h_prune h then prune_bu clf_same t0 else t0) /\ pruned_of t0 t.
Proof.
  intros H. pose proof H as (Hs & (Hpp & Hdel & Hprec) & Hd & _).
  apply (real_fit srt (h_prec h) (clf_lik (h_pp h) (h_delta h)) (clf_tgt (h_pp h) (h_delta h)) (clf_pok k) (clf_yok k));
    auto using clf_law, clf_tgt_perm.
  - eapply clf_setting_Yok; eauto.
  - eapply clf_setting_Pok; eauto.
Qed.

Lemma reg_setting_Pok srt prior h d : reg_setting srt prior h d ->
  reg_pok (t_prior (reg_tgt (h_pp h) (h_delta h)) (h_prior h) (ts_n d) (ts_dim d)).
Proof. intros (_ & _ & _ & Hp & Hk). subst prior. simpl. unfold default_ng in *. destruct (h_prior h); auto. Qed.

Lemma reg_fit_opt srt prior h d : reg_setting srt prior h d ->
  exists t t0, reg_fit srt h d = Ok t /\
    opt Rleb (gap_R (h_prec h)) mid_R (reg_tgt (h_pp h) (h_delta h)) (ts_X d) (ts_y d) (ts_names d) (ts_dim d)
        0 (h_prior h) (all_rows d) t0 /\
    t = (if h_prune h then prune_bu reg_same t0 else t0) /\ pruned_of t0 t.
Proof.
  intros H. pose proof H as (Hs & (Hpp & Hdel & Hprec) & Hd & _).
  apply (real_fit srt (h_prec h) (reg_lik (h_pp h) (h_delta h)) (reg_tgt (h_pp h) (h_delta h)) reg_pok (fun _ => True));
    auto using reg_law, reg_tgt_perm.
  eapply reg_setting_Pok; eauto.
Qed.
