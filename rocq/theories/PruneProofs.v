(** * PruneProofs: [_prune] terminates and equals one bottom-up pass. *)
From Verif Require Import Prelude Lists Tree Spec StructProofs PredictProofs.

Section Prune.
Context {D S P : Type}.
Notation tree := (tree D S P).
Variable same : ninfo P -> ninfo P -> bool.

Notation prune_bu := (Spec.prune_bu same).
Notation irreducible := (Spec.irreducible same).

Lemma info_prune (t : tree) : info (prune_bu t) = info t.
Proof.
  destruct t as [i|i d a b c1 c2]; auto. simpl.
  destruct (prune_bu c1), (prune_bu c2); auto. destruct (same _ _); auto.
Qed.

Lemma prune_bu_irreducible (t : tree) : irreducible (prune_bu t).
Proof.
  induction t as [i|i d a b c1 IH1 c2 IH2]; simpl; auto.
  destruct (prune_bu c1) as [i1|i1 d1 a1 b1 l1 r1]; destruct (prune_bu c2) as [i2|i2 d2 a2 b2 l2 r2];
    simpl in *; try (repeat split; auto; try tauto; intros; discriminate).
  destruct (same i1 i2) eqn:E; simpl; auto. repeat split; auto.
  intros x y Hx Hy. injection Hx as <-. injection Hy as <-. auto.
Qed.

Lemma irreducible_prune (t : tree) : irreducible t -> prune_bu t = t.
Proof.
  induction t as [i|i d a b c1 IH1 c2 IH2]; simpl; auto.
  intros (H & H1 & H2). rewrite IH1, IH2 by auto.
  destruct c1 as [i1|], c2 as [i2|]; auto. rewrite (H i1 i2); auto.
Qed.

Lemma prune_bu_idem (t : tree) : prune_bu (prune_bu t) = prune_bu t.
Proof. apply irreducible_prune, prune_bu_irreducible. Qed.

Lemma prune_bu_pruned (t : tree) : pruned_of t (prune_bu t).
Proof.
  induction t as [i|i d a b c1 IH1 c2 IH2]; simpl; [constructor|].
  destruct (prune_bu c1) as [i1|], (prune_bu c2) as [i2|]; try (constructor; auto).
  destruct (same i1 i2); constructor; auto.
Qed.

Lemma pruned_leaves (t t' : tree) : pruned_of t t' ->
  length (leaves t') <= length (leaves t) /\ (length (leaves t') = length (leaves t) -> t' = t) /\
  height t' <= height t.
Proof.
  induction 1 as [i|i d a b c1 c2|i d a b c1 c2 c1' c2' H1 (L1 & E1 & D1) H2 (L2 & E2 & D2)]; simpl; auto.
  - rewrite app_length. pose proof (leaves_pos c1). pose proof (leaves_pos c2). repeat split; lia.
  - rewrite !app_length. repeat split; try lia. intros E. rewrite E1, E2 by lia. auto.
Qed.

Lemma size_leaves (t : tree) : size t + 1 = 2 * length (leaves t).
Proof. induction t; simpl; auto. rewrite app_length. lia. Qed.

Lemma prune_fuel_correct : forall fuel (t : tree), size t <= fuel -> prune_fuel same fuel t = Ok (prune_bu t).
Proof.
  induction fuel as [|fuel IH]; intros t Hf; [destruct t; simpl in Hf; lia|].
  destruct t as [i|i d a b c1 c2]; [reflexivity|].
  cbn [prune_fuel]. simpl size in Hf.
  assert (Hgen : (let! c1' := prune_fuel same fuel c1 in
                  let! c2' := prune_fuel same fuel c2 in Ok (Split i d a b c1' c2'))
                 = Ok (Split i d a b (prune_bu c1) (prune_bu c2))).
  { rewrite (IH c1), (IH c2) by lia. reflexivity. }
  assert (Hrest : forall t', ~ (exists i1 i2, c1 = Leaf i1 /\ c2 = Leaf i2) ->
     t' = Split i d a b (prune_bu c1) (prune_bu c2) ->
     (if negb (get_depth (Split i d a b c1 c2) =? get_depth t')
         || negb (get_n_leaves (Split i d a b c1 c2) =? get_n_leaves t')
      then prune_fuel same fuel t' else Ok t') = Ok (prune_bu (Split i d a b c1 c2))).
  { intros t' Hnl ->.
    pose proof (pruned_split i d a b c1 c2 _ _ (prune_bu_pruned c1) (prune_bu_pruned c2)) as Hpr.
    destruct (pruned_leaves _ _ Hpr) as (Hle & Heq & _).
    destruct (Nat.eq_dec (length (leaves (Split i d a b (prune_bu c1) (prune_bu c2))))
                         (length (leaves (Split i d a b c1 c2)))) as [E|E].
    - specialize (Heq E). rewrite Heq, !Nat.eqb_refl. simpl. injection Heq as E1 E2. rewrite E1, E2.
      destruct c1 as [i1|], c2 as [i2|]; auto. exfalso; apply Hnl; eauto.
    - rewrite !get_n_leaves_eq.
      rewrite (proj2 (Nat.eqb_neq _ _) (not_eq_sym E)). rewrite orb_true_r.
      rewrite IH.
      + f_equal. simpl. rewrite !prune_bu_idem. auto.
      + pose proof (size_leaves (Split i d a b (prune_bu c1) (prune_bu c2))) as Z1.
        pose proof (size_leaves (Split i d a b c1 c2)) as Z2. cbn [size] in Z2. lia. }
  destruct c1 as [i1|i1 d1 a1 b1 l1 r1]; [destruct c2 as [i2|i2 d2 a2 b2 l2 r2]|].
  - destruct (same i1 i2) eqn:Es; cbn [rbind].
    + rewrite !get_n_leaves_eq. simpl leaves. simpl length. rewrite orb_true_r.
      rewrite IH by (simpl in *; lia). simpl. rewrite Es. auto.
    + rewrite !Nat.eqb_refl. simpl. rewrite Es. auto.
  - rewrite Hgen. cbn [rbind]. apply Hrest; auto. intros (x & z & _ & Hz). discriminate.
  - rewrite Hgen. cbn [rbind]. apply Hrest; auto. intros (x & z & Hz & _). discriminate.
Qed.

Theorem prune_correct (t : tree) : prune same t = Ok (prune_bu t).
Proof. apply prune_fuel_correct. auto. Qed.

(** Pruned trees keep the structural invariants. *)
Lemma pruned_info (t t' : tree) : pruned_of t t' -> info t' = info t.
Proof. destruct 1; auto. Qed.
Lemma pruned_counts (t t' : tree) : pruned_of t t' -> counts_ok t -> counts_ok t'.
Proof.
  induction 1 as [| |i d a b c1 c2 c1' c2' H1 IH1 H2 IH2]; simpl; auto.
  rewrite (pruned_info _ _ H1), (pruned_info _ _ H2). tauto.
Qed.
Lemma pruned_levels (t t' : tree) : pruned_of t t' -> forall lvl, levels_ok lvl t -> levels_ok lvl t'.
Proof.
  induction 1 as [| |i d a b c1 c2 c1' c2' H1 IH1 H2 IH2]; intros lvl; simpl; auto; try tauto.
  intros (E & L1 & L2). auto.
Qed.
Lemma pruned_nodes_ok left right (Pr : list nat -> tree -> Prop) :
  (forall rows t t', info t = info t' -> Pr rows t -> Pr rows t') ->
  forall t t', pruned_of t t' -> forall rows, nodes_ok left right Pr rows t -> nodes_ok left right Pr rows t'.
Proof.
  intros Hinfo. induction 1 as [i|i d a b c1 c2|i d a b c1 c2 c1' c2' H1 IH1 H2 IH2]; intros rows H.
  - exact H.
  - simpl in *. split; auto. destruct H as [H _]. eapply Hinfo; [|exact H]. reflexivity.
  - simpl in *. destruct H as (H & Ha & Hb). repeat split; auto. eapply Hinfo; [|exact H]. reflexivity.
Qed.

(** If children with equal predictions always predict what their parent predicts, pruning does not
    change the value looked up for a row with exclusive comparisons. *)
Section SameValue.
Context {O : Type}.
Variable val : ninfo P -> O.
Variables go1 go2 : D -> nat -> bool.

Fixpoint mergeable_ok (t : tree) : Prop :=
  match t with
  | Leaf _ => True
  | Split i _ _ _ c1 c2 =>
      (same (info c1) (info c2) = true -> val (info c1) = val i /\ val (info c2) = val i) /\
      mergeable_ok c1 /\ mergeable_ok c2
  end.

Lemma prune_lookup (t : tree) r :
  (forall d, In d (map (fun s => fst (fst s)) (splits t)) -> go2 d r = negb (go1 d r)) ->
  mergeable_ok t -> lookup go1 go2 val (prune_bu t) r = lookup go1 go2 val t r.
Proof.
  induction t as [i|i d a b c1 IH1 c2 IH2]; intros Hgo Hm; auto.
  destruct Hm as (Hs & M1 & M2). simpl in Hgo.
  assert (Hd : go2 d r = negb (go1 d r)) by (apply Hgo; auto).
  assert (E1 : lookup go1 go2 val (prune_bu c1) r = lookup go1 go2 val c1 r)
    by (apply IH1; auto; intros; apply Hgo; right; rewrite map_app, in_app_iff; auto).
  assert (E2 : lookup go1 go2 val (prune_bu c2) r = lookup go1 go2 val c2 r)
    by (apply IH2; auto; intros; apply Hgo; right; rewrite map_app, in_app_iff; auto).
  pose proof (info_prune c1) as I1. pose proof (info_prune c2) as I2.
  cbn [prune_bu lookup].
  destruct (prune_bu c1) as [i1|i1 d1 a1 b1 l1 r1] eqn:P1;
    [destruct (prune_bu c2) as [i2|i2 d2 a2 b2 l2 r2] eqn:P2|].
  - simpl in I1, I2, E1, E2. rewrite <- I1, <- I2 in Hs. rewrite <- E1, <- E2.
    destruct (same i1 i2) eqn:Es.
    + destruct (Hs eq_refl) as [V1 V2]. simpl. rewrite V1, V2, Hd. destruct (go1 d r); auto.
    + simpl. auto.
  - cbn [lookup] in *. rewrite E2, <- E1. auto.
  - rewrite <- E1, <- E2. auto.
Qed.
End SameValue.
End Prune.
