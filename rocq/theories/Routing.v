(** * Routing: when every training row is routed back to the node it was fitted on.

    For arbitrary arithmetic: all that is needed is that the split value computed from two training
    values separates the training values below the first from those above the second. *)
From Coq Require Import Permutation Sorted.
From Verif Require Import Prelude Lists Tree Perp Spec PruneProofs FitProofs OptProofs OptFit Api ApiSpec ApiProofs.
Local Open Scope nat_scope.

Section Routing.
Context {A V Y P S : Type}.
Variable F : feat A V.
Variable L : lik Y P S.
Variable leb : A -> A -> bool.

(** The split value computed from the training values of rows [i] and [j] separates column [d]. *)
Definition threshold_ok (X : nat -> nat -> A) (n n_dim : nat) : Prop :=
  forall d i j r, d < n_dim -> i < n -> j < n -> r < n ->
    leb (X i d) (X j d) = true -> f_gap F (X i d) (X j d) = true ->
    (leb (X r d) (X i d) = true ->
       f_lt F (X r d) (f_mid F (X i d) (X j d)) = true /\ f_ge F (X r d) (f_mid F (X i d) (X j d)) = false) /\
    (leb (X j d) (X r d) = true ->
       f_lt F (X r d) (f_mid F (X i d) (X j d)) = false /\ f_ge F (X r d) (f_mid F (X i d) (X j d)) = true).

(** A node was fitted on [rows]: it stores their number and a posterior computed from their targets. *)
Definition fitted_on {D S'} (y : nat -> Y) (rows : list nat) (t : tree D S' P) : Prop :=
  rows <> [] /\ i_n_data (info t) = length rows /\
  exists q r, Permutation r rows /\ i_post (info t) = l_post L q (map y r).

Hypothesis Hrefl : forall a, leb a a = true.

Section Fixed.
Variable X : nat -> nat -> A.
Variable y : nat -> Y.
Variables n n_dim : nat.
Context {NM : Type}.
Variable names : list NM.
Hypothesis Hthr : threshold_ok X n n_dim.

Lemma sorted_le' d row i j : sorted_dim leb X d row -> i <= j -> j < length row ->
  leb (X (nth i row 0) d) (X (nth j row 0) d) = true.
Proof.
  intros Hs Hij Hj. destruct (Nat.eq_dec i j) as [->|Hne]; [apply Hrefl|].
  assert (Hi : i < length row) by lia.
  apply (StronglySorted_nth _ row i j (nth i row 0) (nth j row 0) Hs); [lia| |];
    apply nth_error_nth'; auto.
Qed.

Lemma in_firstn_nth (row : list nat) k i : In i (firstn k row) -> exists p, p < k /\ p < length row /\ nth p row 0 = i.
Proof.
  intros H. apply In_nth_error in H as (p & E).
  assert (p < length (firstn k row)) by (apply nth_error_Some; congruence).
  rewrite firstn_length in H. exists p. split; [lia|]. split; [lia|].
  apply nth_error_nth with (d := 0) in E. rewrite <- E.
  rewrite <- (firstn_skipn k row) at 1. rewrite app_nth1; auto. rewrite firstn_length. lia.
Qed.
Lemma in_skipn_nth (row : list nat) k i : k <= length row -> In i (skipn k row) ->
  exists p, k <= p /\ p < length row /\ nth p row 0 = i.
Proof.
  intros Hk H. apply In_nth_error in H as (p & E).
  assert (p < length (skipn k row)) by (apply nth_error_Some; congruence).
  rewrite skipn_length in H. exists (k + p). split; [lia|]. split; [lia|].
  apply nth_error_nth with (d := 0) in E. rewrite <- E.
  rewrite <- (firstn_skipn k row) at 1. rewrite app_nth2; rewrite firstn_length; [|lia].
  f_equal. lia.
Qed.

Lemma filter_all (f : nat -> bool) l : (forall i, In i l -> f i = true) -> filter f l = l.
Proof. induction l as [|a l IH]; simpl; intros H; auto. rewrite H by auto. f_equal. auto. Qed.
Lemma filter_none (f : nat -> bool) l : (forall i, In i l -> f i = false) -> filter f l = [].
Proof. induction l as [|a l IH]; simpl; intros H; auto. rewrite H by auto. auto. Qed.

Lemma filter_perm (f : nat -> bool) l l' : Permutation l l' -> Permutation (filter f l) (filter f l').
Proof.
  induction 1; simpl; try constructor.
  - destruct (f x); auto.
  - destruct (f x), (f y0); auto using perm_swap.
  - eapply perm_trans; eauto.
Qed.

(** Rows of a node are separated at the chosen cut. *)
Lemma cut_separates d row k :
  sorted_dim leb X d row -> d < n_dim -> (forall i, In i row -> i < n) ->
  In k (dim_positions F X row d) ->
  let v := f_mid F (X (nth (k - 1) row 0) d) (X (nth k row 0) d) in
  filter (fun i => f_lt F (X i d) v) row = firstn k row /\
  filter (fun i => f_ge F (X i d) v) row = skipn k row.
Proof.
  intros Hs Hd Hn Hk v.
  unfold dim_positions in Hk. pose proof (split_positions_range _ _ _ Hk) as Hr.
  unfold gather in Hr. rewrite map_length in Hr.
  apply split_positions_In in Hk as (a & b & _ & Ea & Eb & Hg). unfold gather in Ea, Eb.
  assert (Ha : a = X (nth (k - 1) row 0) d).
  { rewrite nth_error_map in Ea. destruct (nth_error row (k - 1)) eqn:E; [|discriminate].
    rewrite (nth_error_nth _ _ 0 E). simpl in Ea. congruence. }
  assert (Hb : b = X (nth k row 0) d).
  { rewrite nth_error_map in Eb. destruct (nth_error row k) eqn:E; [|discriminate].
    rewrite (nth_error_nth _ _ 0 E). simpl in Eb. congruence. }
  subst a b.
  assert (Hlt : forall i, In i row -> i < n) by auto.
  assert (I1 : nth (k - 1) row 0 < n) by (apply Hn, nth_In; lia).
  assert (I2 : nth k row 0 < n) by (apply Hn, nth_In; lia).
  assert (Hle : leb (X (nth (k - 1) row 0) d) (X (nth k row 0) d) = true) by (apply sorted_le'; auto; lia).
  assert (HL1 : forall i, In i (firstn k row) -> f_lt F (X i d) v = true /\ f_ge F (X i d) v = false).
  { intros i Hi. apply in_firstn_nth in Hi as (p & Hp & Hp' & <-).
    destruct (Hthr d _ _ (nth p row 0) Hd I1 I2 (Hn _ (nth_In _ _ Hp')) Hle Hg) as [H _].
    apply H. apply sorted_le'; auto; lia. }
  assert (HL2 : forall i, In i (skipn k row) -> f_lt F (X i d) v = false /\ f_ge F (X i d) v = true).
  { intros i Hi. apply in_skipn_nth in Hi as (p & Hp & Hp' & <-); [|lia].
    destruct (Hthr d _ _ (nth p row 0) Hd I1 I2 (Hn _ (nth_In _ _ Hp')) Hle Hg) as [_ H].
    apply H. apply sorted_le'; auto; lia. }
  split; rewrite <- (firstn_skipn k row) at 1; rewrite filter_app.
  - rewrite filter_all, filter_none, app_nil_r; auto; intros i Hi; [apply HL2|apply HL1]; auto.
  - rewrite filter_none, filter_all; auto; intros i Hi; [apply HL2|apply HL1]; auto.
Qed.

Notation ok := (nodes_ok (pgo1 F X) (pgo2 F X) (fitted_on y)).

Lemma nodes_ok_perm (t : tree (pdesc NM V) S P) : forall rows rows', Permutation rows rows' -> ok rows t -> ok rows' t.
Proof.
  assert (H0 : forall rows rows' (t : tree (pdesc NM V) S P), Permutation rows rows' -> fitted_on y rows t -> fitted_on y rows' t).
  { intros rows rows' u Hp (H1 & H2 & q & r & H3 & H4). split.
    - intros ->. apply Permutation_sym, Permutation_nil in Hp. auto.
    - split; [rewrite <- (Permutation_length Hp); auto|]. exists q, r. split; auto. eapply perm_trans; eauto. }
  induction t as [i|i d a b c1 IH1 c2 IH2]; intros rows rows' Hp H; simpl in *.
  - split; auto. destruct H as [H _]. eapply H0; eauto.
  - destruct H as (H & Ha & Hb). split; [eapply H0; eauto|]. split.
    + eapply IH1; [|exact Ha]. apply filter_perm; auto.
    + eapply IH2; [|exact Hb]. apply filter_perm; auto.
Qed.

Lemma nfit_routed :
  (forall lvl pa rows idxs t, nfit F L X y names lvl pa rows idxs t ->
     rows <> [] -> (forall i, In i rows -> i < n) -> sorted_idx leb X idxs -> length idxs <= n_dim -> ok rows t) /\
  (forall lvl prior rows idxs t, nfit_child F L X y names lvl prior rows idxs t ->
     rows <> [] -> (forall i, In i rows -> i < n) -> sorted_idx leb X idxs -> length idxs <= n_dim -> ok rows t).
Proof.
  apply nfit_mutind.
  - intros lvl pa rows idxs prior no_split bst Hwf _ _ _ _ Hne Hn Hs Hd. simpl. split; auto.
    split; auto. simpl. split; auto. exists prior, (hd [] idxs). split; auto.
    destruct idxs as [|r idxs]; [destruct Hwf as (_ & H & _); congruence|].
    apply (wf_idx_rows Hwf). left; auto.
  - intros lvl pa rows idxs prior no_split bst dim row k nm v c1 c2 Hwf _ _ _ _ Hrow _ _ Hk Hr _ Hv _ IH1 _ IH2 Hne Hn Hs Hd.
    assert (Hdim : dim < n_dim) by (assert (dim < length idxs) by (apply nth_error_Some; congruence); lia).
    apply nth_error_In in Hrow as Hin. destruct (wf_idx_rows Hwf Hin) as [Hp Hnd].
    assert (Hnrow : forall i, In i row -> i < n) by (intros i Hi; apply Hn; eapply Permutation_in; eauto).
    destruct (cut_separates dim row k (Hs dim row Hrow) Hdim Hnrow Hk) as [E1 E2].
    cbn [nodes_ok]. split.
    { split; auto. split; [reflexivity|]. exists prior, (hd [] idxs). split; auto.
      destruct idxs as [|r idxs]; [destruct Hin|]. apply (wf_idx_rows Hwf). left; auto. }
    split.
    + apply nodes_ok_perm with (rows := firstn k row).
      * rewrite <- E1. unfold pgo1. simpl. rewrite Hv. apply filter_perm; auto.
      * apply IH1; auto.
        -- intros E. apply f_equal with (f := @length nat) in E. rewrite firstn_length in E. simpl in E. lia.
        -- intros i Hi. apply Hnrow. rewrite <- (firstn_skipn k row). apply in_or_app; auto.
    + apply nodes_ok_perm with (rows := skipn k row).
      * rewrite <- E2. unfold pgo2. simpl. rewrite Hv. apply filter_perm; auto.
      * apply IH2; auto.
        -- intros E. apply f_equal with (f := @length nat) in E. rewrite skipn_length in E. simpl in E. lia.
        -- intros i Hi. apply Hnrow. rewrite <- (firstn_skipn k row). apply in_or_app; auto.
  - intros lvl prior rows idxs sub t _ _ -> _ IH Hne Hn Hs Hd. apply IH; auto.
    + apply sorted_idx_filter; auto.
    + rewrite map_length; auto.
  - intros lvl prior rows idxs Hwf _ Hne Hn Hs Hd. simpl. split; auto. split; auto. split; auto.
    exists prior, rows. split; auto.
Qed.
End Fixed.

Variable same : ninfo P -> ninfo P -> bool.

(** Every training row is routed through exactly the nodes it was fitted on. *)
Theorem fit_routed do_prune lvl pa (d : tset A Y) t :
  sorts leb (f_argsort F) -> tset_ok d -> threshold_ok (ts_X d) (ts_n d) (ts_dim d) ->
  perp_fit F L same do_prune lvl pa d = Ok t ->
  nodes_ok (pgo1 F (ts_X d)) (pgo2 F (ts_X d)) (fitted_on (ts_y d)) (seq 0 (ts_n d)) t.
Proof.
  intros Hsrt (Hn & Hn64 & Hdim & Hnm) Hthr E.
  destruct (perp_fit_inv F L same _ _ _ _ _ E) as (t0 & E0 & _ & Hpr).
  assert (Hperm : permutes (f_argsort F)) by (intros key m; apply Hsrt).
  destruct (root_indices_wf' F (ts_X d) (ts_n d) (ts_dim d) Hperm Hn64) as [Hwf Hlen]; [lia|].
  apply pfit_nfit with (rows := seq 0 (ts_n d)) in E0; auto; [|lia|rewrite seq_length; lia].
  eapply pruned_nodes_ok; [|exact Hpr|].
  { intros rows u u' Hi. unfold fitted_on. rewrite Hi. auto. }
  apply (proj1 (nfit_routed (ts_X d) (ts_y d) (ts_n d) (ts_dim d) (ts_names d) Hthr) _ _ _ _ _ E0).
  - destruct (ts_n d); simpl; [lia|congruence].
  - intros i Hi. apply in_seq in Hi. lia.
  - intros c row Ec. unfold root_indices in Ec. rewrite nth_error_map in Ec.
    destruct (nth_error (seq 0 (ts_dim d)) c) as [c'|] eqn:Ec'; [|discriminate]. simpl in Ec. injection Ec as <-.
    apply nth_error_nth with (d := 0) in Ec' as Hc'. assert (c < ts_dim d) by (rewrite <- (seq_length (ts_dim d) 0); apply nth_error_Some; congruence).
    rewrite seq_nth in Hc' by auto. simpl in Hc'. subst c'.
    rewrite (map_ext_in _ (fun i => i)).
    + rewrite map_id. apply Hsrt.
    + intros i Hi. apply store_index_id; auto. eapply Permutation_in in Hi; [|apply Hsrt].
      apply in_seq in Hi. lia.
  - lia.
Qed.
End Routing.
