(** * OptNodes: per-node consequences of optimality: counts, posteriors, routing. *)
From Coq Require Import Permutation.
From Verif Require Import Prelude Lists Tree Perp Spec PredictProofs StructProofs PruneProofs OptSpec OptProofs OptFit.

Lemma nodes_ok_impl {D S P} left right (Pr Qr : list nat -> tree D S P -> Prop) t : forall rows,
  (forall r u, Pr r u -> Qr r u) -> nodes_ok left right Pr rows t -> nodes_ok left right Qr rows t.
Proof. induction t as [|i d a b c1 IH1 c2 IH2]; simpl; intros rows H; intuition. Qed.

Lemma nodes_ok_root {D S P} left right (Pr : list nat -> tree D S P -> Prop) rows t :
  nodes_ok left right Pr rows t -> Pr rows t.
Proof. destruct t; simpl; tauto. Qed.

(** Leaf reached by a query and the rows sharing it. *)
Lemma nodes_ok_same_leaf {D S P} (left right : D -> nat -> bool) (Pr : list nat -> tree D S P -> Prop)
    (qright : D -> bool) (t : tree D S P) : forall rows,
  (forall d j, left d j = negb (right d j)) ->
  nodes_ok left right Pr rows t ->
  exists i, reaches (fun d => qright d = false) (fun d => qright d = true) t i /\
            Pr (same_leaf qright right t rows) (Leaf i).
Proof.
  induction t as [i|i d a b c1 IH1 c2 IH2]; intros rows Hex H.
  - exists i. split; [constructor|]. destruct H as [H _]. unfold same_leaf. simpl.
    rewrite filter_all; auto.
  - destruct H as (_ & H1 & H2). destruct (qright d) eqn:E.
    + destruct (IH2 _ Hex H2) as (l & R & Pl). exists l. split; [apply reaches_right; auto|].
      replace (same_leaf qright right (Split i d a b c1 c2) rows) with (same_leaf qright right c2 (filter (right d) rows)); auto.
      unfold same_leaf. simpl. rewrite E. clear - rows. induction rows as [|j rows IH]; simpl; auto.
      destruct (right d j); simpl; rewrite <- IH; auto.
    + destruct (IH1 _ Hex H1) as (l & R & Pl). exists l. split; [apply reaches_left; auto|].
      replace (same_leaf qright right (Split i d a b c1 c2) rows) with (same_leaf qright right c1 (filter (left d) rows)); auto.
      unfold same_leaf. simpl. rewrite E. clear - rows Hex. induction rows as [|j rows IH]; simpl; auto.
      rewrite (Hex d j). destruct (right d j); simpl; rewrite <- IH; auto.
Qed.

Section OptNodes.
Context {A V Y P S NM : Type}.
Variables leb gap : A -> A -> bool.
Variable mid : A -> A -> V.
Variable F : feat A V.
Variable T : tgt Y P S.
Variable X : nat -> nat -> A.
Variable y : nat -> Y.
Variable names : list NM.
Variable n_dim : nat.
Hypothesis HF : feat_law F leb gap mid.
Hypothesis HR : route_law F leb gap mid.
Notation tree := (tree (pdesc NM V) S P).
Notation opt := (opt leb gap mid T X y names n_dim).
Notation opt_child := (opt_child leb gap mid T X y names n_dim).

(** Prior attribute, sample count and posterior of every node, in terms of the training rows that
    the stored thresholds route to it.  [pa] is the node's prior attribute, [q] the prior its
    posterior is computed from. *)
Fixpoint posts_spec (pa : option P) (q : P) (rows : list nat) (t : tree) : Prop :=
  i_prior (info t) = pa /\ rows <> [] /\ i_n_data (info t) = length rows /\
  i_post (info t) = t_post T q (map y rows) /\
  match t with
  | Leaf _ => True
  | Split _ d _ _ c1 c2 =>
      let rows1 := filter (pgo1 F X d) rows in
      let rows2 := filter (pgo2 F X d) rows in
      let pa1 := t_child_prior T q (map y rows1) in
      let pa2 := t_child_prior T q (map y rows2) in
      posts_spec (Some pa1) (match i_n_dim (info c1) with
                             | Some _ => t_prior T (Some pa1) (length rows1) n_dim
                             | None => q end) rows1 c1 /\
      posts_spec (Some pa2) (match i_n_dim (info c2) with
                             | Some _ => t_prior T (Some pa2) (length rows2) n_dim
                             | None => q end) rows2 c2
  end.

Lemma opt_ndim :
  (forall lvl pa rows t, opt lvl pa rows t -> i_n_dim (info t) = Some n_dim) /\
  (forall lvl p rows t, opt_child lvl p rows t -> True).
Proof. apply opt_mutind; auto. Qed.

Lemma opt_posts :
  (forall lvl pa rows t, opt lvl pa rows t -> rows <> [] ->
     posts_spec pa (t_prior T pa (length rows) n_dim) rows t) /\
  (forall lvl p rows t, opt_child lvl p rows t -> rows <> [] ->
     posts_spec (Some (t_child_prior T p (map y rows)))
       (match i_n_dim (info t) with
        | Some _ => t_prior T (Some (t_child_prior T p (map y rows))) (length rows) n_dim
        | None => p end) rows t).
Proof.
  apply opt_mutind.
  - intros lvl pa rows prior Hp Hno Hne. simpl. subst. auto.
  - intros lvl pa rows prior d a b s nm c1 c2 Hp Hc Hgt Hmax Hnm H1 IH1 H2 IH2 Hne.
    rewrite <- Hp. cbn [posts_spec]. cbv zeta. do 4 (split; [auto|]). destruct Hc as (_ & Hcut & _).
    destruct (cut_routes_rows leb gap mid F X HF HR d nm rows a b Hcut) as [E1 E2].
    rewrite E1, E2. split.
    + apply IH1. eapply left_rows_nonempty; eauto.
    + apply IH2. eapply right_rows_nonempty; eauto.
  - intros lvl p rows t Hl Hm Ho IH Hne. rewrite (proj1 opt_ndim _ _ _ _ Ho). apply IH; auto.
  - intros lvl p rows Hor Hne. simpl. auto.
Qed.

Lemma posts_nodes q : (forall ys, t_child_prior T q ys = q) -> (forall n, t_prior T (Some q) n n_dim = q) ->
  forall t pa rows, posts_spec pa q rows t ->
  nodes_ok (pgo1 F X) (pgo2 F X)
    (fun r u => r <> [] /\ i_n_data (info u) = length r /\ i_post (info u) = t_post T q (map y r)) rows t.
Proof.
  intros Hc Hp. induction t as [i|i d a b c1 IH1 c2 IH2]; intros pa rows H; simpl in *.
  - tauto.
  - destruct H as (H1 & H2 & H3 & H4 & H5 & H6). repeat split; auto.
    + rewrite Hc, Hp in H5. apply (IH1 (Some q)). destruct (i_n_dim (info c1)); auto.
    + rewrite Hc, Hp in H6. apply (IH2 (Some q)). destruct (i_n_dim (info c2)); auto.
Qed.

(** Counts without any assumption on priors. *)
Lemma posts_counts : forall t pa q rows, posts_spec pa q rows t ->
  nodes_ok (pgo1 F X) (pgo2 F X) (fun r u => r <> [] /\ i_n_data (info u) = length r) rows t.
Proof.
  induction t as [i|i d a b c1 IH1 c2 IH2]; intros pa q rows H; simpl in *.
  - tauto.
  - destruct H as (H1 & H2 & H3 & H4 & H5 & H6). repeat split; eauto.
Qed.

(** Every node reached by the construction is optimal on the rows routed to it. *)
Definition fitted_node (rows : list nat) (t : tree) : Prop :=
  (exists lvl pa, opt lvl pa rows t) \/ (exists lvl p, opt_child lvl p rows t).

Lemma opt_nodes :
  (forall lvl pa rows t, opt lvl pa rows t -> nodes_ok (pgo1 F X) (pgo2 F X) fitted_node rows t) /\
  (forall lvl p rows t, opt_child lvl p rows t -> nodes_ok (pgo1 F X) (pgo2 F X) fitted_node rows t).
Proof.
  apply opt_mutind.
  - intros. simpl. split; auto. left. exists lvl, pa. apply opt_leaf; auto.
  - intros lvl pa rows prior d a b s nm c1 c2 Hp Hc Hgt Hmax Hnm H1 IH1 H2 IH2. cbn [nodes_ok]. split.
    + left. exists lvl, pa. eapply opt_split; eauto.
    + destruct Hc as (_ & Hcut & _).
      destruct (cut_routes_rows leb gap mid F X HF HR d nm rows a b Hcut) as [E1 E2].
      rewrite E1, E2. auto.
  - auto.
  - intros. simpl. split; auto. right. exists lvl, prior. apply opt_child_leaf; auto.
Qed.
End OptNodes.
