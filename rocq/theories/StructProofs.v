(** * StructProofs: counts, levels, depth and number of leaves of fitted and pruned trees. *)
From Coq Require Import Permutation.
From Verif Require Import Prelude Lists Tree Perp Spec FitProofs.

Section Struct.
Context {D S P : Type}.
Notation tree := (tree D S P).

Lemma leaves_pos (t : tree) : 1 <= length (leaves t).
Proof. induction t; simpl; auto. rewrite app_length. lia. Qed.

Lemma n_leaves_eq (t : tree) : forall n, update_n_leaves t n = n + length (leaves t).
Proof.
  induction t as [i|i d a b c1 IH1 c2 IH2]; intros n; simpl; auto.
  rewrite IH2, IH1, app_length. lia.
Qed.
Lemma get_n_leaves_eq (t : tree) : get_n_leaves t = length (leaves t).
Proof. unfold get_n_leaves. rewrite n_leaves_eq. auto. Qed.

Lemma leaves_le_data (t : tree) : counts_ok t -> 1 <= i_n_data (info t) ->
  length (leaves t) <= i_n_data (info t).
Proof.
  induction t as [i|i d a b c1 IH1 c2 IH2]; simpl; auto.
  intros (H1 & H2 & H3 & H4 & H5) _. rewrite app_length. specialize (IH1 H4 H1). specialize (IH2 H5 H2). lia.
Qed.

Lemma height_lt_leaves (t : tree) : height t < length (leaves t).
Proof.
  induction t as [i|i d a b c1 IH1 c2 IH2]; simpl; auto. rewrite app_length.
  pose proof (leaves_pos c1). pose proof (leaves_pos c2). lia.
Qed.

Lemma depth_eq (t : tree) : forall lvl d, levels_ok lvl t -> update_depth t d = Nat.max d (lvl + height t).
Proof.
  induction t as [i|i d a b c1 IH1 c2 IH2]; intros lvl dd H; simpl in *.
  - destruct H as [-> _]. lia.
  - destruct H as (_ & H1 & H2). rewrite (IH2 (lvl + 1)), (IH1 (lvl + 1)) by auto. lia.
Qed.
Lemma get_depth_eq (t : tree) lvl : levels_ok lvl t -> get_depth t = lvl + height t.
Proof. intros H. unfold get_depth. rewrite (depth_eq t lvl); auto. Qed.
End Struct.

Section FitStruct.
Context {A V Y P S NM : Type}.
Variable F : feat A V.
Variable L : lik Y P S.
Variable X : nat -> nat -> A.
Variable y : nat -> Y.
Variable names : list NM.

Lemma nfit_struct :
  (forall lvl pa rows idxs t, nfit F L X y names lvl pa rows idxs t ->
     i_n_data (info t) = length rows /\ i_prior (info t) = pa /\ counts_ok t /\ levels_ok lvl t) /\
  (forall lvl prior rows idxs t, nfit_child F L X y names lvl prior rows idxs t ->
     i_n_data (info t) = length rows /\ i_prior (info t) = Some (l_child_prior L prior (gather y rows)) /\
     counts_ok t /\ levels_ok (lvl + 1) t).
Proof.
  apply nfit_mutind.
  - intros; simpl; auto.
  - intros lvl pa rows idxs prior ns bst dim row k nm v c1 c2 Hwf Hprior Hns Hbst Hcand Hrow Hdim Hidx Hk Hkr Hnm Hv
      H1 (N1 & _ & C1 & L1) H2 (N2 & _ & C2 & L2).
    destruct (wf_idx_rows Hwf (nth_error_In _ _ Hrow)) as [Hp _].
    rewrite firstn_length_le in N1 by lia. rewrite skipn_length in N2.
    apply Permutation_length in Hp.
    simpl. rewrite N1, N2. repeat split; auto; lia.
  - intros lvl prior rows idxs sub t Hl Hm Hsub Hfit IH. auto.
  - intros; simpl; auto.
Qed.
End FitStruct.
