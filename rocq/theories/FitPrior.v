(** * FitPrior: fits in which every node has the prior of the root, for arbitrary arithmetic. *)
From Coq Require Import Permutation.
From Verif Require Import Prelude Lists Tree Perp Spec PruneProofs FitProofs OptProofs OptFit Api ApiSpec ApiProofs Routing.
Local Open Scope nat_scope.

Section FitPrior.
Context {A V Y P S : Type}.
Variable F : feat A V.
Variable L : lik Y P S.
Variable q : P.
Hypothesis Hprior : forall n n_dim, l_prior L (Some q) n n_dim = q.
Hypothesis Hchild : forall ys, l_child_prior L q ys = q.

(** The node holds the posterior of [q] given the targets of some distinct rows below [n]. *)
Definition posterior_of {D S'} (y : nat -> Y) (n : nat) (t : tree D S' P) : Prop :=
  exists r, NoDup r /\ r <> [] /\ (forall i, In i r -> i < n) /\ i_n_data (info t) = length r /\ i_post (info t) = l_post L q (map y r).

(** The same rows for every node: [rows], in some order. *)
Definition fitted_prior {D S'} (y : nat -> Y) (rows : list nat) (t : tree D S' P) : Prop :=
  rows <> [] /\ i_n_data (info t) = length rows /\ exists r, Permutation r rows /\ i_post (info t) = l_post L q (map y r).

Section Fixed.
Variable X : nat -> nat -> A.
Variable y : nat -> Y.
Variables n n_dim : nat.
Context {NM : Type}.
Variable names : list NM.

Lemma nfit_posteriors :
  (forall lvl pa rows idxs t, nfit F L X y names lvl pa rows idxs t -> l_prior L pa (length rows) (length idxs) = q ->
     rows <> [] -> (forall i, In i rows -> i < n) -> all_nodes (posterior_of y n) t) /\
  (forall lvl prior rows idxs t, nfit_child F L X y names lvl prior rows idxs t -> prior = q ->
     rows <> [] -> (forall i, In i rows -> i < n) -> all_nodes (posterior_of y n) t).
Proof.
  assert (Hnode : forall D S' (i : ninfo P) rows idxs (t : tree D S' P), wf_idx rows idxs -> rows <> [] -> (forall i, In i rows -> i < n) ->
    info t = i -> i_n_data i = length rows -> i_post i = l_post L q (gather y (hd [] idxs)) -> posterior_of y n t).
  { intros D S' i rows idxs t Hwf Hne Hn Hi Hd Hp. destruct idxs as [|r idxs]; [destruct Hwf as (_ & H & _); congruence|].
    destruct (wf_idx_rows (row := r) Hwf) as [H1 H2]; [left; auto|]. exists r. rewrite Hi. split; [exact H2|]. split.
    - intros ->. apply Permutation_nil in H1. auto.
    - split; [intros j Hj; apply Hn; eapply Permutation_in; eauto|]. split; [rewrite (Permutation_length H1); exact Hd|exact Hp]. }
  apply nfit_mutind.
  - intros lvl pa rows idxs prior no_split bst Hwf -> _ _ _ Hq Hne Hn. rewrite Hq. cbn [all_nodes]. split; auto. eapply Hnode; eauto; reflexivity.
  - intros lvl pa rows idxs prior no_split bst dim row k nm v c1 c2 Hwf -> _ _ _ Hrow _ _ Hk Hr _ Hv _ IH1 _ IH2 Hq Hne Hn.
    apply nth_error_In in Hrow as Hin. destruct (wf_idx_rows Hwf Hin) as [Hp Hnd].
    assert (Hnrow : forall i, In i row -> i < n) by (intros i Hi; apply Hn; eapply Permutation_in; eauto).
    cbn [all_nodes]. split; [rewrite Hq; eapply Hnode; eauto; reflexivity|]. split.
    + apply IH1; auto.
      * intros E. apply f_equal with (f := @length nat) in E. rewrite firstn_length in E. simpl in E. lia.
      * intros i Hi. apply Hnrow. rewrite <- (firstn_skipn k row). apply in_or_app; auto.
    + apply IH2; auto.
      * intros E. apply f_equal with (f := @length nat) in E. rewrite skipn_length in E. simpl in E. lia.
      * intros i Hi. apply Hnrow. rewrite <- (firstn_skipn k row). apply in_or_app; auto.
  - intros lvl prior rows idxs sub t _ _ -> _ IH -> Hne Hn. apply IH; auto. rewrite Hchild. apply Hprior.
  - intros lvl prior rows idxs Hwf _ -> Hne Hn. cbn [all_nodes]. split; auto. exists rows. destruct Hwf as (Hnd & _). simpl. auto.
Qed.

Lemma nfit_routed_prior leb : (forall a, leb a a = true) -> threshold_ok F leb X n n_dim ->
  (forall lvl pa rows idxs t, nfit F L X y names lvl pa rows idxs t -> l_prior L pa (length rows) (length idxs) = q ->
     rows <> [] -> (forall i, In i rows -> i < n) -> sorted_idx leb X idxs -> length idxs <= n_dim ->
     nodes_ok (pgo1 F X) (pgo2 F X) (fitted_prior y) rows t) /\
  (forall lvl prior rows idxs t, nfit_child F L X y names lvl prior rows idxs t -> prior = q ->
     rows <> [] -> (forall i, In i rows -> i < n) -> sorted_idx leb X idxs -> length idxs <= n_dim ->
     nodes_ok (pgo1 F X) (pgo2 F X) (fitted_prior y) rows t).
Proof.
  intros Hrefl Hthr.
  assert (Hperm : forall (t : tree (pdesc NM V) S P) rows rows', Permutation rows rows' ->
    nodes_ok (pgo1 F X) (pgo2 F X) (fitted_prior y) rows t -> nodes_ok (pgo1 F X) (pgo2 F X) (fitted_prior y) rows' t).
  { assert (H0 : forall rows rows' (t : tree (pdesc NM V) S P), Permutation rows rows' -> fitted_prior y rows t -> fitted_prior y rows' t).
    { intros rows rows' u Hp (H1 & H2 & r & H3 & H4). split.
      - intros ->. apply Permutation_sym, Permutation_nil in Hp. auto.
      - split; [rewrite <- (Permutation_length Hp); auto|]. exists r. split; auto. eapply perm_trans; eauto. }
    induction t as [i|i d a b c1 IH1 c2 IH2]; intros rows rows' Hp H; simpl in *.
    - split; auto. destruct H as [H _]. eapply H0; eauto.
    - destruct H as (H & Ha & Hb). split; [eapply H0; eauto|]. split.
      + eapply IH1; [|exact Ha]. apply filter_perm; auto.
      + eapply IH2; [|exact Hb]. apply filter_perm; auto. }
  apply nfit_mutind.
  - intros lvl pa rows idxs prior no_split bst Hwf -> _ _ _ Hq Hne Hn Hs Hd. simpl. split; auto.
    split; auto. simpl. split; auto. exists (hd [] idxs). rewrite Hq. split; auto.
    destruct idxs as [|r idxs]; [destruct Hwf as (_ & H & _); congruence|]. apply (wf_idx_rows Hwf). left; auto.
  - intros lvl pa rows idxs prior no_split bst dim row k nm v c1 c2 Hwf -> _ _ _ Hrow _ _ Hk Hr _ Hv _ IH1 _ IH2 Hq Hne Hn Hs Hd.
    assert (Hdim : dim < n_dim) by (assert (dim < length idxs) by (apply nth_error_Some; congruence); lia).
    apply nth_error_In in Hrow as Hin. destruct (wf_idx_rows Hwf Hin) as [Hp Hnd].
    assert (Hnrow : forall i, In i row -> i < n) by (intros i Hi; apply Hn; eapply Permutation_in; eauto).
    destruct (cut_separates F leb Hrefl X n n_dim Hthr dim row k (Hs dim row Hrow) Hdim Hnrow Hk) as [E1 E2].
    cbn [nodes_ok]. split.
    { split; auto. split; [reflexivity|]. exists (hd [] idxs). simpl. rewrite Hq. split; auto.
      destruct idxs as [|r idxs]; [destruct Hin|]. apply (wf_idx_rows Hwf). left; auto. }
    split.
    + apply Hperm with (rows := firstn k row).
      * rewrite <- E1. unfold pgo1. simpl. rewrite Hv. apply filter_perm; auto.
      * apply IH1; auto.
        -- intros E. apply f_equal with (f := @length nat) in E. rewrite firstn_length in E. simpl in E. lia.
        -- intros i Hi. apply Hnrow. rewrite <- (firstn_skipn k row). apply in_or_app; auto.
    + apply Hperm with (rows := skipn k row).
      * rewrite <- E2. unfold pgo2. simpl. rewrite Hv. apply filter_perm; auto.
      * apply IH2; auto.
        -- intros E. apply f_equal with (f := @length nat) in E. rewrite skipn_length in E. simpl in E. lia.
        -- intros i Hi. apply Hnrow. rewrite <- (firstn_skipn k row). apply in_or_app; auto.
  - intros lvl prior rows idxs sub t _ _ -> _ IH -> Hne Hn Hs Hd. apply IH; auto.
    + rewrite Hchild. apply Hprior.
    + apply sorted_idx_filter; auto.
    + rewrite map_length; auto.
  - intros lvl prior rows idxs Hwf _ -> Hne Hn Hs Hd. simpl. split; auto. split; auto. split; auto. exists rows. auto.
Qed.

(** ** Another likelihood that agrees on the lists of targets that occur *)
Variable L' : lik Y P S.
Hypothesis Sprior : l_prior L' = l_prior L.
Hypothesis Sargmax : l_argmax L' = l_argmax L.
Hypothesis Sgt : l_gt L' = l_gt L.
Hypothesis Spost : l_post L' = l_post L.
Hypothesis Schild : l_child_prior L' = l_child_prior L.
Hypothesis Smany : l_many L' = l_many L.
Hypothesis Sno : forall lvl r, NoDup r -> r <> [] -> (forall i, In i r -> i < n) -> l_no_split L' lvl q (gather y r) = l_no_split L lvl q (gather y r).
Hypothesis Ssplit : forall lvl r ks, NoDup r -> (forall i, In i r -> i < n) -> ks <> [] -> length ks < length r -> (forall k, In k ks -> 1 <= k < length r) ->
  l_split L' lvl q n_dim (gather y r) ks = l_split L lvl q n_dim (gather y r) ks.

Lemma positions_length {A'} (g : A' -> A' -> bool) xs : xs <> [] -> length (split_positions g xs) < length xs.
Proof.
  intros Hne. unfold split_positions, np_where. rewrite map_length, where_from_length.
  assert (H : forall l : list bool, length (filter (fun b => b) l) <= length l) by (induction l as [|[] l IH]; simpl; lia).
  eapply Nat.le_lt_trans; [apply H|]. rewrite adjacent_length. destruct xs; [congruence|simpl; lia].
Qed.

Lemma scores_same lvl rows idxs dim row : length idxs = n_dim -> wf_idx rows idxs -> rows <> [] -> (forall i, In i rows -> i < n) -> nth_error idxs dim = Some row ->
  dim_positions F X row dim <> [] ->
  dim_scores F L' X y lvl q (length idxs) row dim = dim_scores F L X y lvl q (length idxs) row dim.
Proof.
  intros Hl Hwf Hne Hn Hrow Hpos. apply nth_error_In in Hrow. destruct (wf_idx_rows Hwf Hrow) as [Hp Hnd]. unfold dim_scores. rewrite Hl.
  assert (Hr : row <> []) by (intros ->; apply Permutation_nil in Hp; auto).
  apply Ssplit; auto.
  - intros i Hi. apply Hn. eapply Permutation_in; eauto.
  - unfold dim_positions. eapply Nat.lt_le_trans; [apply positions_length|unfold gather; rewrite map_length; lia].
    unfold gather. destruct row; [congruence|discriminate].
  - intros k Hk. unfold dim_positions in Hk. apply split_positions_range in Hk. unfold gather in Hk. rewrite map_length in Hk. exact Hk.
Qed.
Lemma scan_same lvl rows idxs ns : length idxs = n_dim -> wf_idx rows idxs -> rows <> [] -> (forall i, In i rows -> i < n) ->
  scan F L' X y lvl q idxs ns = scan F L X y lvl q idxs ns.
Proof.
  intros Hl Hwf Hne Hn. unfold scan.
  assert (H : forall l b, (forall d r, In (d, r) l -> nth_error idxs d = Some r) ->
    fold_left (scan_dim F L' X y lvl q (length idxs)) l b = fold_left (scan_dim F L X y lvl q (length idxs)) l b).
  { induction l as [|[d r] l IH]; intros b Hin; cbn [fold_left]; [reflexivity|].
    rewrite IH by (intros; apply Hin; right; auto). f_equal. rewrite !scan_dim_eq.
    destruct (dim_positions F X r d) as [|k0 ks] eqn:Ek; [reflexivity|]. rewrite <- Ek.
    rewrite Sargmax, Sgt. rewrite (scores_same lvl rows idxs d r) by (first [apply Hin; left; reflexivity | congruence | auto]). reflexivity. }
  apply H. intros d r Hin. apply combine_seq_In in Hin. rewrite Nat.sub_0_r in Hin. tauto.
Qed.

Lemma nfit_same :
  (forall lvl pa rows idxs t, nfit F L X y names lvl pa rows idxs t -> l_prior L pa (length rows) (length idxs) = q -> length idxs = n_dim ->
     rows <> [] -> (forall i, In i rows -> i < n) -> nfit F L' X y names lvl pa rows idxs t) /\
  (forall lvl prior rows idxs t, nfit_child F L X y names lvl prior rows idxs t -> prior = q -> length idxs = n_dim ->
     rows <> [] -> (forall i, In i rows -> i < n) -> nfit_child F L' X y names lvl prior rows idxs t).
Proof.
  assert (Hno : forall lvl rows idxs, wf_idx rows idxs -> rows <> [] -> (forall i, In i rows -> i < n) ->
    l_no_split L' lvl q (gather y (hd [] idxs)) = l_no_split L lvl q (gather y (hd [] idxs))).
  { intros lvl rows idxs Hwf Hne Hn. destruct idxs as [|r idxs]; [destruct Hwf as (_ & H & _); congruence|].
    destruct (wf_idx_rows (row := r) Hwf) as [H1 H2]; [left; auto|]. apply Sno; auto.
    - intros E. simpl in E. subst r. apply Permutation_nil in H1. auto.
    - intros i Hi. apply Hn. eapply Permutation_in; eauto. }
  apply nfit_mutind.
  - intros lvl pa rows idxs prior no_split bst Hwf -> Ens -> Hb Hq Hd Hne Hn. rewrite Hq in *.
    rewrite <- Spost, <- Hq, <- Sprior. eapply nfit_leaf; eauto. rewrite Sprior, Hq. rewrite (Hno lvl rows idxs) by auto. rewrite <- Ens.
    rewrite (scan_same lvl rows idxs) by auto. exact Hb.
  - intros lvl pa rows idxs prior no_split bst dim row k nm v c1 c2 Hwf -> Ens -> Hc Hrow Hdim Hidx Hk Hr Hnm Hv Hc1 IH1 Hc2 IH2 Hq Hd Hne Hn.
    rewrite Hq in *.
    assert (Ens' : no_split = l_no_split L' lvl q (gather y (hd [] idxs))) by (rewrite (Hno lvl rows idxs); auto).
    rewrite <- (scan_same lvl rows idxs) by auto. rewrite <- Spost.
    apply nth_error_In in Hrow as Hin. destruct (wf_idx_rows Hwf Hin) as [Hp Hnd].
    assert (Hnrow : forall i, In i row -> i < n) by (intros i Hi; apply Hn; eapply Permutation_in; eauto).
    assert (Hq' : q = l_prior L' pa (length rows) (length idxs)) by (rewrite Sprior; auto).
    rewrite <- (scan_same lvl rows idxs) in Hdim, Hidx by auto.
    eapply (nfit_split F L' X y names lvl pa rows idxs q no_split _ dim row k nm v c1 c2); eauto.
    + destruct Hc as (d' & row' & k' & j & G1 & G2 & G3 & G4 & G5 & G6). exists d', row', k', j.
      assert (Hpos : dim_positions F X row' d' <> []) by (intros E; rewrite E in G5; destruct j; discriminate).
      rewrite (scan_same lvl rows idxs) by auto. rewrite (scores_same lvl rows idxs d' row') by auto. rewrite Sargmax. repeat split; auto.
    + apply IH1; auto.
      * intros E. apply f_equal with (f := @length nat) in E. rewrite firstn_length in E. simpl in E. lia.
      * intros i Hi. apply Hnrow. rewrite <- (firstn_skipn k row). apply in_or_app; auto.
    + apply IH2; auto.
      * intros E. apply f_equal with (f := @length nat) in E. rewrite skipn_length in E. simpl in E. lia.
      * intros i Hi. apply Hnrow. rewrite <- (firstn_skipn k row). apply in_or_app; auto.
  - intros lvl prior rows idxs sub t Hlen Hm Es _ IH -> Hd Hne Hn. apply nfit_child_fit with (sub := sub); auto.
    + rewrite Smany. exact Hm.
    + rewrite Schild. apply IH; auto; [rewrite Hchild; apply Hprior|subst sub; rewrite map_length; exact Hd].
  - intros lvl prior rows idxs Hwf Hm -> Hd Hne Hn. rewrite <- Schild, <- Spost. apply nfit_child_leaf; auto. rewrite Smany. exact Hm.
Qed.
End Fixed.

(** A fit is determined by its inputs. *)
Lemma nfit_unique (L0 : lik Y P S) X y {NM} (names : list NM) :
  (forall lvl pa rows idxs t, nfit F L0 X y names lvl pa rows idxs t -> forall t', nfit F L0 X y names lvl pa rows idxs t' -> t' = t) /\
  (forall lvl prior rows idxs t, nfit_child F L0 X y names lvl prior rows idxs t -> forall t', nfit_child F L0 X y names lvl prior rows idxs t' -> t' = t).
Proof.
  apply nfit_mutind.
  - intros lvl pa rows idxs prior no_split bst Hwf -> -> -> Hb t' H. inversion H; subst; [reflexivity|]. exfalso.
    match goal with C : is_candidate _ _ _ _ _ _ _ _ |- _ => destruct C as (d' & row' & k' & j & _ & G & _) end. rewrite Hb in G. simpl in G. lia.
  - intros lvl pa rows idxs prior no_split bst dim row k nm v c1 c2 Hwf -> -> -> Hc Hrow Hdim Hidx Hk Hr Hnm -> Hc1 IH1 Hc2 IH2 t' H.
    inversion H; subst.
    + exfalso. match goal with C : _ = mkBest _ _ _ |- _ => rewrite C in Hdim end. simpl in Hdim. lia.
    + assert (dim0 = dim) by lia. assert (k0 = k) by lia. subst dim0 k0.
      assert (row0 = row) by congruence. subst row0. assert (nm0 = nm) by congruence. subst nm0.
      f_equal; auto.
  - intros lvl prior rows idxs sub t Hlen Hm -> _ IH t' H. inversion H; subst; [apply IH; auto|].
    exfalso. match goal with C : _ \/ _ |- _ => destruct C as [C|C] end; [lia|congruence].
  - intros lvl prior rows idxs Hwf Hm t' H. inversion H; subst; [|reflexivity].
    exfalso. destruct Hm as [Hm|Hm]; [lia|congruence].
Qed.

Variable same : ninfo P -> ninfo P -> bool.

Lemma pruned_all_nodes {D S'} (Pr : tree D S' P -> Prop) t t' : (forall u u', info u = info u' -> Pr u -> Pr u') ->
  pruned_of t t' -> all_nodes Pr t -> all_nodes Pr t'.
Proof.
  intros HP. induction 1 as [i|i d a b c1 c2|i d a b c1 c2 c1' c2' H1 IH1 H2 IH2]; cbn [all_nodes]; auto.
  - intros (H & _). split; [eapply HP; [|exact H]; reflexivity|auto].
  - intros (H & Ha & Hb). split; [eapply HP; [|exact H]; reflexivity|auto].
Qed.

Theorem fit_posteriors do_prune lvl pa (d : tset A Y) t : permutes (f_argsort F) -> tset_ok d -> l_prior L pa (ts_n d) (ts_dim d) = q ->
  perp_fit F L same do_prune lvl pa d = Ok t -> all_nodes (posterior_of (ts_y d) (ts_n d)) t.
Proof.
  intros Hperm (Hn & Hn64 & Hdim & Hnm) Hq E.
  destruct (perp_fit_inv F L same _ _ _ _ _ E) as (t0 & E0 & _ & Hpr).
  destruct (root_indices_wf' F (ts_X d) (ts_n d) (ts_dim d) Hperm Hn64) as [Hwf Hlen]; [lia|].
  apply pfit_nfit with (rows := seq 0 (ts_n d)) in E0; auto; [|lia|rewrite seq_length; lia].
  eapply pruned_all_nodes; [|exact Hpr|].
  { intros u u' Hi (r & H). exists r. rewrite <- Hi. exact H. }
  apply (proj1 (nfit_posteriors (ts_X d) (ts_y d) (ts_n d) (ts_names d)) _ _ _ _ _ E0).
  - rewrite seq_length, Hlen. exact Hq.
  - destruct (ts_n d); simpl; [lia|congruence].
  - intros i Hi. apply in_seq in Hi. lia.
Qed.

Theorem fit_routed_prior leb do_prune lvl pa (d : tset A Y) t : (forall a, leb a a = true) ->
  sorts leb (f_argsort F) -> tset_ok d -> threshold_ok F leb (ts_X d) (ts_n d) (ts_dim d) -> l_prior L pa (ts_n d) (ts_dim d) = q ->
  perp_fit F L same do_prune lvl pa d = Ok t ->
  nodes_ok (pgo1 F (ts_X d)) (pgo2 F (ts_X d)) (fitted_prior (ts_y d)) (seq 0 (ts_n d)) t.
Proof.
  intros Hrefl Hsrt (Hn & Hn64 & Hdim & Hnm) Hthr Hq E.
  destruct (perp_fit_inv F L same _ _ _ _ _ E) as (t0 & E0 & _ & Hpr).
  assert (Hperm : permutes (f_argsort F)) by (intros key m; apply Hsrt).
  destruct (root_indices_wf' F (ts_X d) (ts_n d) (ts_dim d) Hperm Hn64) as [Hwf Hlen]; [lia|].
  apply pfit_nfit with (rows := seq 0 (ts_n d)) in E0; auto; [|lia|rewrite seq_length; lia].
  eapply pruned_nodes_ok; [|exact Hpr|].
  { intros rows u u' Hi. unfold fitted_prior. rewrite Hi. auto. }
  apply (proj1 (nfit_routed_prior (ts_X d) (ts_y d) (ts_n d) (ts_dim d) (ts_names d) leb Hrefl Hthr) _ _ _ _ _ E0).
  - rewrite seq_length, Hlen. exact Hq.
  - destruct (ts_n d); simpl; [lia|congruence].
  - intros i Hi. apply in_seq in Hi. lia.
  - intros c row Ec. unfold root_indices in Ec. rewrite nth_error_map in Ec.
    destruct (nth_error (seq 0 (ts_dim d)) c) as [c'|] eqn:Ec'; [|discriminate]. simpl in Ec. injection Ec as <-.
    apply nth_error_nth with (d := 0) in Ec' as Hc'. assert (c < ts_dim d) by (rewrite <- (seq_length (ts_dim d) 0); apply nth_error_Some; congruence).
    rewrite seq_nth in Hc' by auto. simpl in Hc'. subst c'.
    rewrite (map_ext_in _ (fun i => i)).
    + rewrite map_id. apply Hsrt.
    + intros i Hi. apply store_index_id; auto. eapply Permutation_in in Hi; [|apply Hsrt].
      apply in_seq in Hi. lia.
  - lia.
Qed.

Theorem fit_same (L' : lik Y P S) do_prune lvl pa (d : tset A Y) t :
  l_prior L' = l_prior L -> l_argmax L' = l_argmax L -> l_gt L' = l_gt L -> l_post L' = l_post L ->
  l_child_prior L' = l_child_prior L -> l_many L' = l_many L ->
  (forall lv r, NoDup r -> r <> [] -> (forall i, In i r -> i < ts_n d) -> l_no_split L' lv q (gather (ts_y d) r) = l_no_split L lv q (gather (ts_y d) r)) ->
  (forall lv r ks, NoDup r -> (forall i, In i r -> i < ts_n d) -> ks <> [] -> length ks < length r -> (forall k, In k ks -> 1 <= k < length r) ->
    l_split L' lv q (ts_dim d) (gather (ts_y d) r) ks = l_split L lv q (ts_dim d) (gather (ts_y d) r) ks) ->
  permutes (f_argsort F) -> tset_ok d -> l_prior L pa (ts_n d) (ts_dim d) = q ->
  perp_fit F L same do_prune lvl pa d = Ok t -> perp_fit F L' same do_prune lvl pa d = Ok t.
Proof.
  intros S1 S2 S3 S4 S5 S6 S7 S8 Hperm (Hn & Hn64 & Hdim & Hnm) Hq E. unfold perp_fit in *.
  destruct (pfit_root F L (ts_X d) (ts_y d) (ts_names d) lvl pa (ts_n d) (ts_dim d)) as [t0|e] eqn:E0; [|discriminate].
  destruct (root_indices_wf' F (ts_X d) (ts_n d) (ts_dim d) Hperm Hn64) as [Hwf Hlen]; [lia|].
  assert (Hl : length (seq 0 (ts_n d)) = ts_n d) by apply seq_length.
  pose proof E0 as Hf. unfold pfit_root in Hf. apply pfit_nfit with (rows := seq 0 (ts_n d)) in Hf; auto; [|lia|lia].
  apply (proj1 (nfit_same (ts_X d) (ts_y d) (ts_n d) (ts_dim d) (ts_names d) L' S1 S2 S3 S4 S5 S6 S7 S8)) in Hf; auto.
  - destruct (pfit_complete F L' (ts_X d) (ts_y d) (ts_names d) (1 + ts_n d) lvl pa (seq 0 (ts_n d)) (root_indices F (ts_X d) (ts_n d) (ts_dim d)) Hwf) as (t1 & E1 & Hf1); [lia|lia|].
    assert (t1 = t0) by (eapply (proj1 (nfit_unique L' (ts_X d) (ts_y d) (ts_names d))); eauto). subst t1.
    unfold pfit_root. simpl in E1 |- *. rewrite E1. exact E.
  - rewrite Hl, Hlen. exact Hq.
  - destruct (ts_n d); simpl; [lia|congruence].
  - intros i Hi. apply in_seq in Hi. lia.
Qed.
End FitPrior.
