(** * OptFit: a successful fit returns the optimal tree, and that tree is unique. *)
From Coq Require Import Permutation Sorted.
From Verif Require Import Prelude Lists Tree Perp Spec FitProofs OptSpec OptProofs.

Section OptFit.
Context {A V Y P S NM : Type}.
Variables leb gap : A -> A -> bool.
Variable mid : A -> A -> V.
Variable F : feat A V.
Variable L : lik Y P S.
Variable T : tgt Y P S.
Variable Pok : P -> Prop.
Variable Yok : Y -> Prop.
Variable X : nat -> nat -> A.
Variable y : nat -> Y.
Variable names : list NM.
Hypothesis HF : feat_law F leb gap mid.
Hypothesis HL : lik_law L T Pok Yok.
Hypothesis HT : tgt_perm T.

Definition sorted_idx (idxs : list (list nat)) : Prop :=
  forall d row, nth_error idxs d = Some row -> sorted_dim leb X d row.

Lemma sorted_idx_filter f idxs : sorted_idx idxs -> sorted_idx (map (filter f) idxs).
Proof.
  intros H d row E. rewrite nth_error_map in E.
  destruct (nth_error idxs d) as [r|] eqn:Er; [|discriminate]. simpl in E. injection E as <-.
  apply StronglySorted_filter. apply (H d r Er).
Qed.

(** Value of cutting a sorted row at position [k]. *)
Definition sc (lvl : nat) (prior : P) (n_dim : nat) (row : list nat) (d k : nat) : S :=
  t_cut T lvl prior n_dim (length (dim_positions F X row d)) (map y (firstn k row)) (map y (skipn k row)).

Section Scan.
Variables (lvl : nat) (prior : P) (rows : list nat) (idxs : list (list nat)) (ns : S).
Hypothesis Hwf : wf_idx rows idxs.
Hypothesis Hsort : sorted_idx idxs.
Hypothesis Hprior : Pok prior.
Hypothesis Hy : Forall Yok (map y rows).
Let n_dim := length idxs.

Lemma row_Yok row : In row idxs -> Forall Yok (map y row).
Proof.
  intros Hin. destruct (wf_idx_rows Hwf Hin) as [Hp _].
  rewrite Forall_forall in *. intros v Hv. apply Hy.
  apply Permutation_in with (l := map y row); auto. apply Permutation_map; auto.
Qed.

Lemma dim_scores_eq d row : nth_error idxs d = Some row ->
  dim_scores F L X y lvl prior n_dim row d = map (sc lvl prior n_dim row d) (dim_positions F X row d).
Proof.
  intros E. apply nth_error_In in E as Hin. unfold dim_scores.
  rewrite (ll_split _ _ _ _ HL); auto.
  - unfold sc, gather. apply map_ext. intros k. rewrite firstn_map, skipn_map. reflexivity.
  - apply row_Yok; auto.
  - unfold n_dim. intros Hz. apply length_zero_iff_nil in Hz. rewrite Hz in Hin. destruct Hin.
  - apply positions_sorted.
  - intros k Hk. unfold gather. rewrite map_length.
    unfold dim_positions in Hk. apply split_positions_range in Hk.
    unfold gather in Hk. rewrite map_length in Hk. auto.
Qed.

Definition done_inv (s : nat) (b : best S) : Prop :=
  (b = mkBest ns (-1) (-1) /\
   forall d row k, d < s -> nth_error idxs d = Some row -> In k (dim_positions F X row d) ->
     l_gt L (sc lvl prior n_dim row d k) ns = false) \/
  (exists d row k, d < s /\ nth_error idxs d = Some row /\ In k (dim_positions F X row d) /\
     b = mkBest (sc lvl prior n_dim row d k) (Z.of_nat k) (Z.of_nat d) /\
     l_gt L (sc lvl prior n_dim row d k) ns = true /\
     forall d' row' k', d' < s -> nth_error idxs d' = Some row' -> In k' (dim_positions F X row' d') ->
       l_gt L (sc lvl prior n_dim row' d' k') (sc lvl prior n_dim row d k) = false /\
       (l_gt L (sc lvl prior n_dim row d k) (sc lvl prior n_dim row' d' k') = false ->
        d < d' \/ d = d' /\ k <= k')).

Lemma sorted_pos_le ks j j' k k' : StronglySorted lt ks ->
  nth_error ks j = Some k -> nth_error ks j' = Some k' -> j <= j' -> k <= k'.
Proof.
  intros Hs E E' H. destruct (Nat.eq_dec j j') as [->|Hne].
  - rewrite E in E'. injection E' as ->. auto.
  - assert (Hjj : j < j') by lia. pose proof (StronglySorted_nth lt ks j j' k k' Hs Hjj E E'). lia.
Qed.

Lemma scan_step s row b : nth_error idxs s = Some row -> done_inv s b ->
  done_inv (Datatypes.S s) (scan_dim F L X y lvl prior n_dim b (s, row)).
Proof.
  intros Es Hb. rewrite scan_dim_eq.
  pose proof (ll_irrefl _ _ _ _ HL) as Hirr. pose proof (ll_trans _ _ _ _ HL) as Htr.
  pose proof (ll_ntrans _ _ _ _ HL) as Hnt.
  destruct (dim_positions F X row s) as [|k0 ks0] eqn:Epos.
  - (* no admissible position *)
    destruct Hb as [[-> H]|(d & r & k & Hd & Er & Hk & -> & Hgt & H)].
    + left. split; auto. intros d' r' k' Hd' Er' Hk'.
      destruct (Nat.eq_dec d' s) as [->|]; [|apply H; auto; lia].
      rewrite Es in Er'. injection Er' as <-. rewrite Epos in Hk'. destruct Hk'.
    + right. exists d, r, k. repeat split; auto.
      * destruct (Nat.eq_dec d' s) as [->|]; [|apply H; auto; lia].
        rewrite Es in H1. injection H1 as <-. rewrite Epos in H2. destruct H2.
      * intros Hs'. destruct (Nat.eq_dec d' s) as [->|]; [|eapply H; eauto; lia].
        rewrite Es in H1. injection H1 as <-. rewrite Epos in H2. destruct H2.
  - rewrite <- Epos. rewrite (dim_scores_eq s row Es), (ll_argmax _ _ _ _ HL).
    set (ks := dim_positions F X row s) in *.
    set (l := map (sc lvl prior n_dim row s) ks).
    assert (Hl : l <> []) by (unfold l; rewrite Epos; discriminate).
    destruct (argmax_spec (l_gt L) Hirr Htr Hnt l Hl) as (sm & Em & Hmax).
    rewrite Em. set (j := argmax (l_gt L) l) in *.
    assert (Ek : exists k, nth_error ks j = Some k /\ sm = sc lvl prior n_dim row s k).
    { unfold l in Em. rewrite nth_error_map in Em. destruct (nth_error ks j) as [k|] eqn:E; [|discriminate].
      simpl in Em. injection Em as <-. eauto. }
    destruct Ek as (k & Ek & ->). rewrite Ek.
    assert (Hk : In k ks) by (eapply nth_error_In; eauto).
    assert (Hks : StronglySorted lt ks) by apply positions_sorted.
    assert (Hrow : forall k', In k' ks ->
       l_gt L (sc lvl prior n_dim row s k') (sc lvl prior n_dim row s k) = false /\
       (l_gt L (sc lvl prior n_dim row s k) (sc lvl prior n_dim row s k') = false -> k <= k')).
    { intros k' Hk'. apply In_nth_error in Hk' as (j' & Ej').
      destruct (Hmax j' (sc lvl prior n_dim row s k')) as [H1 H2].
      { unfold l. rewrite nth_error_map, Ej'. reflexivity. }
      split; auto. intros H. apply (sorted_pos_le ks j j'); auto. }
    destruct (l_gt L (sc lvl prior n_dim row s k) (b_score b)) eqn:Egt.
    + right. exists s, row, k. split; [lia|]. split; auto. split; auto. split; auto.
      destruct Hb as [[-> H]|(d & r & k1 & Hd & Er & Hk1 & -> & Hgt & H)]; simpl in Egt.
      * split; auto. intros d' row' k' Hd' Er' Hk'.
        destruct (Nat.eq_dec d' s) as [->|].
        -- rewrite Es in Er'. injection Er' as <-. destruct (Hrow k' Hk') as [H1 H2]. split; auto.
        -- assert (Hd2 : d' < s) by lia. pose proof (H d' row' k' Hd2 Er' Hk') as H1.
           pose proof (gt_mixed1 (l_gt L) Hnt _ _ _ Egt H1) as H2. split.
           ++ apply (gt_asym (l_gt L)); auto.
           ++ congruence.
      * split; [eapply Htr; eauto|]. intros d' row' k' Hd' Er' Hk'.
        destruct (Nat.eq_dec d' s) as [->|].
        -- rewrite Es in Er'. injection Er' as <-. destruct (Hrow k' Hk') as [H1 H2]. split; auto.
        -- assert (Hd2 : d' < s) by lia. destruct (H d' row' k' Hd2 Er' Hk') as [H1 _].
           pose proof (gt_mixed1 (l_gt L) Hnt _ _ _ Egt H1) as H2. split.
           ++ apply (gt_asym (l_gt L)); auto.
           ++ congruence.
    + destruct Hb as [[-> H]|(d & r & k1 & Hd & Er & Hk1 & -> & Hgt & H)]; simpl in Egt.
      * left. split; auto. intros d' row' k' Hd' Er' Hk'.
        destruct (Nat.eq_dec d' s) as [->|]; [|apply H; auto; lia].
        rewrite Es in Er'. injection Er' as <-. destruct (Hrow k' Hk') as [H1 H2]. eapply Hnt; eauto.
      * right. exists d, r, k1. split; [lia|]. repeat (split; auto).
        -- destruct (Nat.eq_dec d' s) as [->|]; [|apply H; auto; lia].
           rewrite Es in H1. injection H1 as <-. destruct (Hrow k' H2) as [H3 _]. eapply Hnt; eauto.
        -- intros Hs'. destruct (Nat.eq_dec d' s) as [->|]; [|eapply H; eauto; lia]. lia.
Qed.

Lemma scan_inv : done_inv n_dim (scan F L X y lvl prior idxs ns).
Proof.
  unfold scan. fold n_dim.
  assert (H : forall l s b, (forall i r, nth_error l i = Some r -> nth_error idxs (s + i) = Some r) ->
     done_inv s b ->
     done_inv (s + length l) (fold_left (scan_dim F L X y lvl prior n_dim) (combine (seq s (length l)) l) b)).
  { induction l as [|r l IH]; intros s b Hl Hb; simpl combine.
    - simpl. rewrite Nat.add_0_r. auto.
    - cbn [length seq combine fold_left].
      replace (s + Datatypes.S (length l)) with (Datatypes.S s + length l) by lia.
      apply IH.
      + intros i r' E. replace (Datatypes.S s + i) with (s + Datatypes.S i) by lia. apply Hl. auto.
      + apply scan_step; auto. specialize (Hl 0 r eq_refl). rewrite Nat.add_0_r in Hl. auto. }
  change n_dim with (0 + length idxs) at 1. unfold n_dim at 2. apply (H idxs 0); auto.
  left. split; auto. intros; lia.
Qed.
End Scan.

Lemma opt_rows_perm_cand n_dim lvl prior rows rows' d a b s : Permutation rows rows' ->
  cand leb gap T X y n_dim lvl prior rows d a b s -> cand leb gap T X y n_dim lvl prior rows' d a b s.
Proof.
  intros Hp (Hd & Hc & m & Hm & ->). split; auto. split; [eapply is_cut_perm; eauto|].
  exists m. split; [eapply n_cuts_perm; eauto|].
  apply (tp_cut _ HT); apply Permutation_map; apply Permutation_filter; auto.
Qed.

(** The specification does not depend on the order in which rows are listed. *)
Lemma opt_perm n_dim :
  (forall lvl pa rows t, opt leb gap mid T X y names n_dim lvl pa rows t ->
     forall rows', Permutation rows rows' -> opt leb gap mid T X y names n_dim lvl pa rows' t) /\
  (forall lvl prior rows t, opt_child leb gap mid T X y names n_dim lvl prior rows t ->
     forall rows', Permutation rows rows' -> opt_child leb gap mid T X y names n_dim lvl prior rows' t).
Proof.
  apply opt_mutind.
  - intros lvl pa rows prior Hprior Hno rows' Hp.
    assert (Hinfo : node_info T y n_dim lvl pa prior rows = node_info T y n_dim lvl pa prior rows').
    { unfold node_info. rewrite (Permutation_length Hp), (tp_post _ HT prior _ _ (Permutation_map y Hp)). auto. }
    rewrite Hinfo. apply opt_leaf.
    + rewrite <- (Permutation_length Hp); auto.
    + intros d a b s Hc. rewrite <- (tp_stop _ HT lvl prior _ _ (Permutation_map y Hp)).
      eapply Hno. eapply opt_rows_perm_cand; [symmetry; exact Hp|exact Hc].
  - intros lvl pa rows prior d a b s nm c1 c2 Hprior Hc Hgt Hmax Hnm H1 IH1 H2 IH2 rows' Hp.
    assert (Hinfo : node_info T y n_dim lvl pa prior rows = node_info T y n_dim lvl pa prior rows').
    { unfold node_info. rewrite (Permutation_length Hp), (tp_post _ HT prior _ _ (Permutation_map y Hp)). auto. }
    rewrite Hinfo, (tp_stop _ HT lvl prior _ _ (Permutation_map y Hp)). apply opt_split.
    + rewrite <- (Permutation_length Hp); auto.
    + eapply opt_rows_perm_cand; eauto.
    + rewrite <- (tp_stop _ HT lvl prior _ _ (Permutation_map y Hp)); auto.
    + intros d' a' b' s' Hc'. apply (Hmax d' a' b' s'). eapply opt_rows_perm_cand; [symmetry; exact Hp|exact Hc'].
    + auto.
    + apply IH1. apply Permutation_filter; auto.
    + apply IH2. apply Permutation_filter; auto.
  - intros lvl prior rows t Hl Hm Ho IH rows' Hp. apply opt_child_fit.
    + rewrite <- (Permutation_length Hp); auto.
    + eapply (tp_many _ HT); [|eauto]. apply Permutation_map; auto.
    + rewrite <- (tp_child _ HT prior _ _ (Permutation_map y Hp)). auto.
  - intros lvl prior rows Hor rows' Hp.
    rewrite (tp_child _ HT prior _ _ (Permutation_map y Hp)), (Permutation_length Hp),
      (tp_post _ HT prior _ _ (Permutation_map y Hp)).
    apply opt_child_leaf. destruct Hor as [H|H]; [left; rewrite <- (Permutation_length Hp); auto|].
    right. intros Hm. apply H. eapply (tp_many _ HT); [|eauto]. symmetry. apply Permutation_map; auto.
Qed.

(** [cand] in terms of positions. *)
Lemma cand_pos lvl prior rows idxs d a b s : wf_idx rows idxs -> sorted_idx idxs ->
  cand leb gap T X y (length idxs) lvl prior rows d a b s ->
  exists row k, nth_error idxs d = Some row /\ In k (dim_positions F X row d) /\
    a = X (nth (k - 1) row 0) d /\ b = X (nth k row 0) d /\ s = sc lvl prior (length idxs) row d k.
Proof.
  intros Hwf Hs (Hd & Hc & m & Hm & ->).
  destruct (nth_error idxs d) as [row|] eqn:Er; [|apply nth_error_None in Er; lia].
  destruct (wf_idx_rows Hwf (nth_error_In _ _ Er)) as [Hp _].
  pose proof (Hs d row Er) as Hsd.
  destruct (cut_pos leb gap mid F X HF d row rows Hsd Hp a b Hc) as (k & Hk & Ea & Eb).
  exists row, k. repeat (split; auto). unfold sc.
  destruct (pos_cut leb gap mid F X HF d row rows Hsd Hp k Hk) as (_ & P1 & P2).
  rewrite (n_cuts_unique leb gap X d rows m _ Hm (pos_n_cuts leb gap mid F X HF d row rows Hsd Hp)).
  rewrite Ea. symmetry. apply (tp_cut _ HT); apply Permutation_map; auto.
Qed.

Lemma pos_cand lvl prior rows idxs d row k : wf_idx rows idxs -> sorted_idx idxs ->
  nth_error idxs d = Some row -> In k (dim_positions F X row d) ->
  cand leb gap T X y (length idxs) lvl prior rows d
    (X (nth (k - 1) row 0) d) (X (nth k row 0) d) (sc lvl prior (length idxs) row d k).
Proof.
  intros Hwf Hs Er Hk. destruct (wf_idx_rows Hwf (nth_error_In _ _ Er)) as [Hp _].
  pose proof (Hs d row Er) as Hsd.
  destruct (pos_cut leb gap mid F X HF d row rows Hsd Hp k Hk) as (Hc & P1 & P2).
  split; [apply nth_error_Some; congruence|]. split; auto.
  exists (length (dim_positions F X row d)). split; [eapply pos_n_cuts; eauto|].
  unfold sc. apply (tp_cut _ HT); apply Permutation_map; auto.
Qed.

Lemma nfit_wf :
  (forall lvl pa rows idxs t, nfit F L X y names lvl pa rows idxs t -> wf_idx rows idxs) /\
  (forall lvl prior rows idxs t, nfit_child F L X y names lvl prior rows idxs t -> True).
Proof. apply nfit_mutind; auto. Qed.

Lemma gt_prop a b : l_gt L a b = false <-> ~ t_gt T a b.
Proof.
  rewrite <- (ll_gt _ _ _ _ HL). destruct (l_gt L a b); split; intros; congruence.
Qed.

Lemma nfit_opt :
  (forall lvl pa rows idxs t, nfit F L X y names lvl pa rows idxs t ->
     sorted_idx idxs -> rows <> [] -> Forall Yok (map y rows) ->
     Pok (t_prior T pa (length rows) (length idxs)) ->
     opt leb gap mid T X y names (length idxs) lvl pa rows t) /\
  (forall lvl prior rows idxs t, nfit_child F L X y names lvl prior rows idxs t ->
     sorted_idx idxs -> rows <> [] -> Forall Yok (map y rows) -> Pok prior ->
     opt_child leb gap mid T X y names (length idxs) lvl prior rows t).
Proof.
  apply nfit_mutind.
  - intros lvl pa rows idxs prior ns bst Hwf Hprior Hns Hbst Hinit Hs Hne Hy Hok.
    rewrite (ll_prior _ _ _ _ HL) in Hprior. rewrite <- Hprior in Hok.
    assert (Hp0 : Permutation (map y (hd [] idxs)) (map y rows)).
    { apply Permutation_map. destruct idxs as [|r idxs]; [destruct Hwf as (_ & H & _); congruence|].
      apply (wf_idx_rows (rows := rows) (idxs := r :: idxs)); simpl; auto. }
    assert (Hy0 : Forall Yok (map y (hd [] idxs))).
    { rewrite Forall_forall in *. intros v Hv. apply Hy. eapply Permutation_in; eauto. }
    assert (Hne0 : map y (hd [] idxs) <> []).
    { intros E. rewrite E in Hp0. apply Permutation_nil in Hp0. destruct rows; simpl in *; congruence. }
    rewrite (ll_stop _ _ _ _ HL) in Hns by auto.
    fold (gather y (hd [] idxs)) in *. unfold gather in *.
    rewrite (ll_post _ _ _ _ HL) by auto.
    rewrite (tp_post _ HT prior _ _ Hp0).
    apply (opt_leaf leb gap mid T X y names (length idxs) lvl pa rows prior); auto.
    intros d a b s Hc. rewrite <- (tp_stop _ HT lvl prior _ _ Hp0). rewrite <- Hns.
    destruct (cand_pos lvl prior rows idxs d a b s Hwf Hs Hc) as (row & k & Er & Hk & _ & _ & ->).
    destruct (scan_inv lvl prior rows idxs ns Hwf Hok Hy) as [[_ H]|(d1 & r1 & k1 & _ & _ & _ & E & _)].
    + apply gt_prop. apply H; auto. apply nth_error_Some. congruence.
    + exfalso. rewrite <- Hbst, Hinit in E. injection E as _ E _. lia.
  - intros lvl pa rows idxs prior ns bst dim row k nm v c1 c2 Hwf Hprior Hns Hbst Hcand Hrow Hdim Hidx Hk Hkr Hnm Hv
      H1 IH1 H2 IH2 Hs Hne Hy Hok.
    rewrite (ll_prior _ _ _ _ HL) in Hprior. rewrite <- Hprior in Hok.
    assert (Hp0 : Permutation (map y (hd [] idxs)) (map y rows)).
    { apply Permutation_map. destruct idxs as [|r idxs]; [destruct Hwf as (_ & H & _); congruence|].
      apply (wf_idx_rows (rows := rows) (idxs := r :: idxs)); simpl; auto. }
    assert (Hy0 : Forall Yok (map y (hd [] idxs))).
    { rewrite Forall_forall in *. intros w Hw. apply Hy. eapply Permutation_in; eauto. }
    assert (Hne0 : map y (hd [] idxs) <> []).
    { intros E. rewrite E in Hp0. apply Permutation_nil in Hp0. destruct rows; simpl in *; congruence. }
    unfold gather in *.
    rewrite (ll_stop _ _ _ _ HL) in Hns by auto.
    rewrite (ll_post _ _ _ _ HL) by auto.
    rewrite (tp_post _ HT prior _ _ Hp0).
    destruct (wf_idx_rows Hwf (nth_error_In _ _ Hrow)) as [Hp Hnd].
    pose proof (Hs dim row Hrow) as Hsd.
    destruct (pos_cut leb gap mid F X HF dim row rows Hsd Hp k Hk) as (Hc & P1 & P2).
    pose proof (cut_le leb gap mid F X HF _ _ _ _ Hc) as Hle.
    assert (Hg : gap (X (nth (k - 1) row 0) dim) (X (nth k row 0) dim) = true) by apply Hc.
    rewrite (fl_mid _ _ _ _ HF) in Hv by auto. rewrite Hv.
    destruct (scan_inv lvl prior rows idxs ns Hwf Hok Hy) as [[E _]|(d1 & r1 & k1 & Hd1 & Er1 & Hk1 & E & Hgt & Hmax)].
    { exfalso. rewrite <- Hbst in E. rewrite E in Hidx. simpl in Hidx. lia. }
    rewrite <- Hbst in E. rewrite E in Hidx, Hdim. simpl in Hidx, Hdim.
    apply Nat2Z.inj in Hidx, Hdim. subst k1 d1. rewrite Hrow in Er1. injection Er1 as <-.
    rewrite E. cbn [b_score]. rewrite Hns, (tp_stop _ HT lvl prior _ _ Hp0).
    assert (Hyk : forall l m, Permutation l (filter m rows) -> Forall Yok (map y l)).
    { intros l m Hl. rewrite Forall_forall in *. intros w Hw. apply in_map_iff in Hw as (i & <- & Hi).
      apply Hy. apply in_map. eapply Permutation_in in Hi; [|exact Hl]. apply filter_In in Hi. tauto. }
    apply opt_split; auto.
    + apply pos_cand; auto.
    + rewrite <- (tp_stop _ HT lvl prior _ _ Hp0), <- Hns. apply (ll_gt _ _ _ _ HL). auto.
    + intros d' a' b' s' Hc'.
      destruct (cand_pos lvl prior rows idxs d' a' b' s' Hwf Hs Hc') as (row' & k' & Er' & Hk' & -> & -> & ->).
      assert (Hd' : d' < length idxs) by (apply nth_error_Some; congruence).
      destruct (Hmax d' row' k' Hd' Er' Hk') as [M1 M2]. split; [apply gt_prop; auto|].
      intros M. apply gt_prop in M. apply M2 in M. destruct M as [M|[-> M]]; auto.
      right. split; auto. rewrite Hrow in Er'. injection Er' as <-.
      eapply pos_order; eauto.
    + apply (proj2 (opt_perm (length idxs))) with (rows := firstn k row); auto. apply IH1; auto.
      * intros E0. apply (f_equal (@length nat)) in E0. rewrite firstn_length_le in E0 by lia. simpl in E0. lia.
      * eapply Hyk. exact P1.
    + apply (proj2 (opt_perm (length idxs))) with (rows := skipn k row); auto. apply IH2; auto.
      * intros E0. apply (f_equal (@length nat)) in E0. rewrite skipn_length in E0. simpl in E0. lia.
      * eapply Hyk. exact P2.
  - intros lvl prior rows idxs sub t Hl Hm Hsub Hfit IH Hs Hne Hy Hok. unfold gather in *.
    assert (Hne' : map y rows <> []) by (destruct rows; simpl; congruence).
    apply opt_child_fit; auto.
    + apply (ll_many _ _ _ _ HL); auto.
    + rewrite <- (ll_child _ _ _ _ HL) by auto.
      replace (length idxs) with (length sub) by (rewrite Hsub, map_length; auto).
      apply IH; auto.
      * rewrite Hsub. apply sorted_idx_filter; auto.
      * rewrite (ll_child _ _ _ _ HL) by auto. apply (ll_child_ok _ _ _ _ HL); auto.
  - intros lvl prior rows idxs Hwf Hor Hs Hne Hy Hok. unfold gather in *.
    assert (Hne' : map y rows <> []) by (destruct rows; simpl; congruence).
    rewrite (ll_child _ _ _ _ HL), (ll_post _ _ _ _ HL) by auto.
    apply opt_child_leaf. destruct Hor as [H|H]; auto. right. intros Hm.
    apply (ll_many _ _ _ _ HL) in Hm; auto. congruence.
Qed.

(** Uniqueness of the optimal tree. *)
Lemma opt_functional n_dim :
  (forall lvl pa rows t, opt leb gap mid T X y names n_dim lvl pa rows t ->
     forall t', opt leb gap mid T X y names n_dim lvl pa rows t' -> t = t') /\
  (forall lvl prior rows t, opt_child leb gap mid T X y names n_dim lvl prior rows t ->
     forall t', opt_child leb gap mid T X y names n_dim lvl prior rows t' -> t = t').
Proof.
  apply opt_mutind.
  - intros lvl pa rows prior Hprior Hno t' Ht'. inversion Ht'; subst; auto.
    exfalso. eapply Hno; eauto.
  - intros lvl pa rows prior d a b s nm c1 c2 Hprior Hc Hgt Hmax Hnm H1 IH1 H2 IH2 t' Ht'.
    inversion Ht' as [|? ? ? prior' d' a' b' s' nm' c1' c2' Hprior' Hc' Hgt' Hmax' Hnm' H1' H2']; subst.
    + exfalso. eapply H0; eauto.
    + destruct (Hmax _ _ _ _ Hc') as [M1 M2]. destruct (Hmax' _ _ _ _ Hc) as [M1' M2'].
      assert (Edd : d = d' /\ a = a').
      { destruct (M2 M1') as [Hlt|[-> Hle]]; destruct (M2' M1) as [Hlt'|[E' Hle']]; try lia.
        split; auto. apply (ol_antisym _ (fl_order _ _ _ _ HF)); auto. }
      destruct Edd as [<- <-].
      destruct Hc as (_ & Hcut & m & Hm & ->). destruct Hc' as (_ & Hcut' & m' & Hm' & ->).
      pose proof (cut_unique leb gap mid F X HF _ _ _ _ _ Hcut Hcut'). subst b'.
      pose proof (n_cuts_unique leb gap X _ _ _ _ Hm Hm'). subst m'.
      rewrite Hnm in Hnm'. injection Hnm' as <-.
      rewrite (IH1 _ H1'), (IH2 _ H2'). reflexivity.
  - intros lvl prior rows t Hl Hm Ho IH t' Ht'. inversion Ht'; subst; auto.
    exfalso. destruct H; [lia|auto].
  - intros lvl prior rows Hor t' Ht'. inversion Ht'; subst; auto.
    exfalso. destruct Hor; [lia|auto].
Qed.

(** Root matrix. *)
Lemma store_index_id n i : (N.of_nat n <= 2 ^ 64)%N -> i < n -> store_index n i = i.
Proof.
  intros Hn Hi. unfold store_index, index_bits.
  assert (Hi' : (N.of_nat i < N.of_nat n)%N) by lia.
  rewrite N.mod_small; [apply Nat2N.id|].
  destruct (N.ltb_spec (N.of_nat n) (2 ^ 16)); [lia|].
  destruct (N.ltb_spec (N.of_nat n) (2 ^ 32)); lia.
Qed.

Lemma root_indices_eq n n_dim : (N.of_nat n <= 2 ^ 64)%N ->
  root_indices F X n n_dim = map (fun d => f_argsort F (fun i => X i d) n) (seq 0 n_dim).
Proof.
  intros Hn. unfold root_indices. apply map_ext. intros d.
  rewrite <- (map_id (f_argsort F (fun i => X i d) n)) at 2. apply map_ext_in. intros i Hi.
  apply store_index_id; auto. destruct (fl_sort _ _ _ _ HF (fun i => X i d) n) as [Hp _].
  eapply Permutation_in in Hi; [|exact Hp]. apply in_seq in Hi. lia.
Qed.

Lemma root_indices_wf n n_dim : (N.of_nat n <= 2 ^ 64)%N -> n_dim <> 0 ->
  wf_idx (seq 0 n) (root_indices F X n n_dim) /\ sorted_idx (root_indices F X n n_dim) /\
  length (root_indices F X n n_dim) = n_dim.
Proof.
  intros Hn Hd. rewrite root_indices_eq by auto. split; [|split].
  - split; [apply seq_NoDup|]. split; [destruct n_dim; simpl; congruence|].
    rewrite Forall_forall. intros row Hr. apply in_map_iff in Hr as (d & <- & _).
    apply (fl_sort _ _ _ _ HF).
  - intros d row E. rewrite nth_error_map in E. rewrite nth_error_seq in E.
    destruct (d <? n_dim); [|discriminate]. simpl in E. injection E as <-.
    apply (fl_sort _ _ _ _ HF).
  - rewrite map_length, seq_length. auto.
Qed.

(** Fitting succeeds and returns the (unique) optimal tree. *)
Theorem pfit_root_opt lvl pa n n_dim :
  0 < n -> (N.of_nat n <= 2 ^ 64)%N -> 0 < n_dim <= length names ->
  (forall i, i < n -> Yok (y i)) -> Pok (t_prior T pa n n_dim) ->
  exists t, pfit_root F L X y names lvl pa n n_dim = Ok t /\
            opt leb gap mid T X y names n_dim lvl pa (seq 0 n) t.
Proof.
  intros Hn Hn64 Hd HY HP. destruct (root_indices_wf n n_dim Hn64) as (Hwf & Hs & Hlen); [lia|].
  destruct (pfit_complete F L X y names (Datatypes.S n) lvl pa (seq 0 n) (root_indices F X n n_dim) Hwf)
    as (t & E & Hfit).
  - lia.
  - rewrite seq_length. lia.
  - exists t. split; auto. rewrite <- Hlen. apply (proj1 nfit_opt); auto.
    + destruct n; simpl; [lia|congruence].
    + rewrite Forall_forall. intros v Hv. apply in_map_iff in Hv as (i & <- & Hi).
      apply in_seq in Hi. apply HY. lia.
    + rewrite seq_length, Hlen. auto.
Qed.

(** Routing: on the node's rows the stored comparisons agree with the optimal split. *)
Lemma cut_routes (HR : route_law F leb gap mid) d (nm : NM) rows a b i :
  is_cut leb gap X d rows a b -> In i rows ->
  pgo1 F X (mkDesc d nm (mid a b)) i = leb (X i d) a /\
  pgo2 F X (mkDesc d nm (mid a b)) i = negb (leb (X i d) a).
Proof.
  intros Hc Hi. pose proof (cut_le leb gap mid F X HF _ _ _ _ Hc) as Hle.
  destruct Hc as (_ & _ & Hst & Hg & Hb). unfold pgo1, pgo2. simpl.
  destruct (HR a b (X i d) Hle Hg) as [H1 H2].
  destruct (Hb i Hi) as [H|H].
  - destruct (H1 H) as [-> ->]. rewrite H. auto.
  - destruct (H2 H) as [-> ->].
    assert (leb (X i d) a = false) as ->; auto.
    destruct (leb (X i d) a) eqn:E; auto. rewrite <- Hst. symmetry.
    eapply (ol_trans _ (fl_order _ _ _ _ HF)); eauto.
Qed.

Lemma filter_ext_in' {B} (f g : B -> bool) l : (forall x, In x l -> f x = g x) -> filter f l = filter g l.
Proof.
  induction l as [|x l IH]; intros H; simpl; auto.
  rewrite (H x), IH; simpl; auto. intros; apply H; simpl; auto.
Qed.

Lemma cut_routes_rows (HR : route_law F leb gap mid) d (nm : NM) rows a b :
  is_cut leb gap X d rows a b ->
  filter (pgo1 F X (mkDesc d nm (mid a b))) rows = left_rows leb X d a rows /\
  filter (pgo2 F X (mkDesc d nm (mid a b))) rows = right_rows leb X d a rows.
Proof.
  intros Hc. split; apply filter_ext_in'; intros i Hi; apply (cut_routes HR d nm rows a b i Hc Hi).
Qed.

End OptFit.
