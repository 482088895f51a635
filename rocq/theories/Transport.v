(** * Transport: optimal trees of related data sets are related.

    One theorem behind row-order independence, feature scaling, class relabelling, target scaling and
    the agreement of the rational and the real classification model. *)
From Coq Require Import Permutation.
From Verif Require Import Prelude Lists Tree Perp Spec OptSpec OptProofs OptFit.

Definition opt_rel {P P'} (Rp : P -> P' -> Prop) (a : option P) (b : option P') : Prop :=
  match a, b with
  | None, None => True
  | Some x, Some x' => Rp x x'
  | _, _ => False
  end.

(** Relation between trees: same shape, same split dimensions and names, thresholds mapped by [fv],
    node attributes related. [Rs n]: relation of scores in a node with [n] samples. *)
Section TreeRel.
Context {V V' S S' P P' NM : Type}.
Variable fv : nat -> V -> V'.
Variable Rs : nat -> S -> S' -> Prop.
Variable Rp : P -> P' -> Prop.

Definition info_rel (i : ninfo P) (i' : ninfo P') : Prop :=
  opt_rel Rp (i_prior i) (i_prior i') /\ i_level i = i_level i' /\ i_n_data i = i_n_data i' /\
  i_n_dim i = i_n_dim i' /\ Rp (i_post i) (i_post i').

Inductive tree_rel : tree (pdesc NM V) S P -> tree (pdesc NM V') S' P' -> Prop :=
| tree_rel_leaf i i' : info_rel i i' -> tree_rel (Leaf i) (Leaf i')
| tree_rel_split i i' d nm v a a' b b' c1 c1' c2 c2' :
    info_rel i i' -> Rs (i_n_data i) a a' -> Rs (i_n_data i) b b' ->
    tree_rel c1 c1' -> tree_rel c2 c2' ->
    tree_rel (Split i (mkDesc d nm v) a b c1 c2) (Split i' (mkDesc d nm (fv d v)) a' b' c1' c2').
End TreeRel.

(** Relation of two target sides under the target map [fy]. *)
Record tgt_rel {Y P S Y' P' S'} (T : tgt Y P S) (T' : tgt Y' P' S') (Yok : Y -> Prop)
    (fy : Y -> Y') (Rs : nat -> S -> S' -> Prop) (Rp : P -> P' -> Prop) : Prop := {
  tr_prior : forall p p' n d, Rp p p' -> Rp (t_prior T (Some p) n d) (t_prior T' (Some p') n d);
  tr_stop : forall lvl p p' ys, Rp p p' -> Forall Yok ys -> ys <> [] ->
     Rs (length ys) (t_stop T lvl p ys) (t_stop T' lvl p' (map fy ys));
  tr_cut : forall lvl p p' n m ys zs, Rp p p' -> Forall Yok ys -> Forall Yok zs -> ys <> [] -> zs <> [] ->
     n <> 0 -> m <> 0 ->
     Rs (length ys + length zs) (t_cut T lvl p n m ys zs) (t_cut T' lvl p' n m (map fy ys) (map fy zs));
  tr_gt : forall n s s' r r', Rs n s s' -> Rs n r r' -> (t_gt T s r <-> t_gt T' s' r');
  tr_post : forall p p' ys, Rp p p' -> Forall Yok ys -> ys <> [] -> Rp (t_post T p ys) (t_post T' p' (map fy ys));
  tr_child : forall p p' ys, Rp p p' -> Forall Yok ys -> ys <> [] ->
     Rp (t_child_prior T p ys) (t_child_prior T' p' (map fy ys));
  tr_many : forall ys, Forall Yok ys -> (t_many T ys <-> t_many T' (map fy ys))
}.

Section Transport.
Context {A V Y P S A' V' Y' P' S' NM : Type}.
Variables leb gap : A -> A -> bool.
Variables leb' gap' : A' -> A' -> bool.
Variable mid : A -> A -> V.
Variable mid' : A' -> A' -> V'.
Variable T : tgt Y P S.
Variable T' : tgt Y' P' S'.
Variable X : nat -> nat -> A.
Variable y : nat -> Y.
Variable X' : nat -> nat -> A'.
Variable y' : nat -> Y'.
Variable names : list NM.
Variable n_dim : nat.
Variable phi : nat -> nat.
Variable fx : nat -> A -> A'.
Variable fv : nat -> V -> V'.
Variable fy : Y -> Y'.
Variable Yok : Y -> Prop.
Variable Rs : nat -> S -> S' -> Prop.
Variable Rp : P -> P' -> Prop.

Hypothesis Ho : order_law leb.
Hypothesis Ho' : order_law leb'.
Hypothesis Hleb : forall d a b, leb' (fx d a) (fx d b) = leb a b.
Hypothesis Hgap : forall d a b, leb a b = true -> gap' (fx d a) (fx d b) = gap a b.
Hypothesis Hmid : forall d a b, leb a b = true -> mid' (fx d a) (fx d b) = fv d (mid a b).
Hypothesis HT : tgt_rel T T' Yok fy Rs Rp.

(** The rows of the node correspond. *)
Definition rows_rel (rows : list nat) : Prop :=
  (forall i d, In i rows -> d < n_dim -> X' (phi i) d = fx d (X i d)) /\
  (forall i, In i rows -> y' (phi i) = fy (y i)) /\
  Forall Yok (map y rows).

Lemma fx_inj d a b : fx d a = fx d b -> a = b.
Proof.
  intros E. apply (ol_antisym _ Ho); rewrite <- (Hleb d), E; apply (ol_refl _ Ho').
Qed.

Lemma value_rel d rows a : rows_rel rows -> d < n_dim ->
  value_of X d rows a -> value_of X' d (map phi rows) (fx d a).
Proof.
  intros [HX _] Hd (i & Hi & <-). exists (phi i). split; [apply in_map; auto|]. apply HX; auto.
Qed.
Lemma value_rel_inv d rows a' : rows_rel rows -> d < n_dim ->
  value_of X' d (map phi rows) a' -> exists a, a' = fx d a /\ value_of X d rows a.
Proof.
  intros [HX _] Hd (j & Hj & <-). apply in_map_iff in Hj as (i & <- & Hi).
  exists (X i d). split; [apply HX; auto|]. exists i; auto.
Qed.

Lemma leb_false_le a b : leb b a = false -> leb a b = true.
Proof. intros H. destruct (ol_total _ Ho a b); auto. congruence. Qed.

Lemma is_cut_rel d rows a b : rows_rel rows -> d < n_dim ->
  (is_cut leb gap X d rows a b <-> is_cut leb' gap' X' d (map phi rows) (fx d a) (fx d b)).
Proof.
  intros HR Hd. split.
  - intros (Ha & Hb & Hl & Hg & Hn). repeat split.
    + apply value_rel; auto.
    + apply value_rel; auto.
    + rewrite Hleb; auto.
    + rewrite Hgap; auto. apply leb_false_le; auto.
    + intros j Hj. apply in_map_iff in Hj as (i & <- & Hi). destruct HR as [HX _].
      rewrite HX by auto. rewrite !Hleb. auto.
  - intros (Ha & Hb & Hl & Hg & Hn). rewrite Hleb in Hl. repeat split; auto.
    + destruct (value_rel_inv d rows _ HR Hd Ha) as (a0 & E & H). apply fx_inj in E. subst; auto.
    + destruct (value_rel_inv d rows _ HR Hd Hb) as (b0 & E & H). apply fx_inj in E. subst; auto.
    + rewrite <- Hg. symmetry. apply Hgap. apply leb_false_le; auto.
    + intros i Hi. destruct HR as [HX _].
      specialize (Hn (phi i) (in_map phi _ _ Hi)). rewrite HX in Hn by auto. rewrite !Hleb in Hn. auto.
Qed.

Lemma is_cut_rel_inv d rows a' b' : rows_rel rows -> d < n_dim ->
  is_cut leb' gap' X' d (map phi rows) a' b' -> exists a b, a' = fx d a /\ b' = fx d b /\ is_cut leb gap X d rows a b.
Proof.
  intros HR Hd Hc. pose proof Hc as (Ha & Hb & _).
  destruct (value_rel_inv d rows _ HR Hd Ha) as (a & -> & _).
  destruct (value_rel_inv d rows _ HR Hd Hb) as (b & -> & _).
  exists a, b. split; [|split]; auto. apply (is_cut_rel d rows a b HR Hd). exact Hc.
Qed.

Lemma n_cuts_rel d rows m : rows_rel rows -> d < n_dim ->
  n_cuts leb gap X d rows m -> n_cuts leb' gap' X' d (map phi rows) m.
Proof.
  intros HR Hd (cs & N & <- & H).
  exists (map (fun ab => (fx d (fst ab), fx d (snd ab))) cs). split; [|split].
  - apply FinFun.Injective_map_NoDup; auto. intros [a b] [c e] E. injection E as E1 E2.
    apply fx_inj in E1, E2. congruence.
  - apply map_length.
  - intros a' b'. rewrite in_map_iff. split.
    + intros ([a b] & E & Hin). injection E as <- <-. apply is_cut_rel; auto. apply H; auto.
    + intros Hc. destruct (is_cut_rel_inv d rows a' b' HR Hd Hc) as (a & b & -> & -> & Hc').
      exists (a, b). split; auto. apply H; auto.
Qed.

Lemma n_cuts_rel_inv d rows m : rows_rel rows -> d < n_dim ->
  n_cuts leb' gap' X' d (map phi rows) m -> n_cuts leb gap X d rows m.
Proof.
  intros HR Hd (cs & N & <- & H).
  assert (Hex : forall l, incl l cs -> NoDup l ->
     exists l0, map (fun ab => (fx d (fst ab), fx d (snd ab))) l0 = l).
  { induction l as [|[a' b'] l IH]; intros Hi Hn.
    - exists []. auto.
    - destruct IH as (l0 & E). { intros z Hz; apply Hi; right; auto. } { inversion Hn; auto. }
      assert (Hc : In (a', b') cs) by (apply Hi; left; auto). apply H in Hc.
      destruct (is_cut_rel_inv d rows a' b' HR Hd Hc) as (a & b & -> & -> & _).
      exists ((a, b) :: l0). simpl. f_equal; auto. }
  destruct (Hex cs (fun z h => h) N) as (l0 & E).
  exists l0. rewrite <- E in N, H. split; [eapply NoDup_map_inv; eauto|].
  split; [rewrite <- E, map_length; auto|]. intros a b. rewrite (is_cut_rel d rows a b HR Hd).
  rewrite <- H, in_map_iff. split.
  - intros Hin. exists (a, b). auto.
  - intros ([a0 b0] & E0 & Hin). injection E0 as E1 E2. apply fx_inj in E1, E2. simpl in *. subst; auto.
Qed.

Lemma left_rel d a rows : rows_rel rows -> d < n_dim ->
  left_rows leb' X' d (fx d a) (map phi rows) = map phi (left_rows leb X d a rows).
Proof.
  intros [HX _] Hd. unfold left_rows. induction rows as [|i rows IH]; simpl; auto.
  rewrite HX, Hleb by (simpl; auto).
  assert (IH' : filter (fun i => leb' (X' i d) (fx d a)) (map phi rows) = map phi (filter (fun i => leb (X i d) a) rows)).
  { apply IH. intros j e Hj He. apply HX; simpl; auto. }
  destruct (leb (X i d) a); simpl; rewrite IH'; auto.
Qed.
Lemma right_rel d a rows : rows_rel rows -> d < n_dim ->
  right_rows leb' X' d (fx d a) (map phi rows) = map phi (right_rows leb X d a rows).
Proof.
  intros [HX _] Hd. unfold right_rows. induction rows as [|i rows IH]; simpl; auto.
  rewrite HX, Hleb by (simpl; auto).
  assert (IH' : filter (fun i => negb (leb' (X' i d) (fx d a))) (map phi rows) = map phi (filter (fun i => negb (leb (X i d) a)) rows)).
  { apply IH. intros j e Hj He. apply HX; simpl; auto. }
  destruct (leb (X i d) a); simpl; rewrite IH'; auto.
Qed.

Lemma ys_rel rows : rows_rel rows -> map y' (map phi rows) = map fy (map y rows).
Proof. intros (_ & Hy & _). rewrite !map_map. apply map_ext_in. auto. Qed.

Lemma rows_rel_filter f rows : rows_rel rows -> rows_rel (filter f rows).
Proof.
  intros (H1 & H2 & H3). split; [|split].
  - intros i d Hi Hd. apply filter_In in Hi. apply H1; tauto.
  - intros i Hi. apply filter_In in Hi. apply H2; tauto.
  - rewrite Forall_forall in *. intros v Hv. apply in_map_iff in Hv as (i & <- & Hi).
    apply filter_In in Hi. apply H3. apply in_map. tauto.
Qed.

Lemma map_nonempty {B C} (f : B -> C) l : l <> [] -> map f l <> [].
Proof. destruct l; simpl; congruence. Qed.

Lemma is_cut_ne d rows a b : is_cut leb gap X d rows a b ->
  map y (left_rows leb X d a rows) <> [] /\ map y (right_rows leb X d a rows) <> [].
Proof.
  intros ((i & Hi & Ei) & (j & Hj & Ej) & Hl & _). split; apply map_nonempty; intros E.
  - assert (In i (left_rows leb X d a rows)). { apply filter_In. rewrite Ei, (ol_refl _ Ho). auto. }
    rewrite E in H. destruct H.
  - assert (In j (right_rows leb X d a rows)). { apply filter_In. rewrite Ej, Hl. auto. }
    rewrite E in H. destruct H.
Qed.

Lemma n_cuts_pos d rows a b m : is_cut leb gap X d rows a b -> n_cuts leb gap X d rows m -> m <> 0.
Proof. intros Hc (cs & _ & <- & H) E. apply H in Hc. destruct cs; [destruct Hc|discriminate]. Qed.

(** Corresponding candidates have related values. *)
Lemma cut_score_rel lvl p p' rows d a b m : rows_rel rows -> d < n_dim -> Rp p p' ->
  is_cut leb gap X d rows a b -> n_cuts leb gap X d rows m ->
  Rs (length rows)
    (t_cut T lvl p n_dim m (map y (left_rows leb X d a rows)) (map y (right_rows leb X d a rows)))
    (t_cut T' lvl p' n_dim m (map y' (left_rows leb' X' d (fx d a) (map phi rows)))
                             (map y' (right_rows leb' X' d (fx d a) (map phi rows)))).
Proof.
  intros HR Hd HP Hc Hm. rewrite left_rel, right_rel by auto.
  rewrite !ys_rel by (apply rows_rel_filter; auto).
  destruct (is_cut_ne d rows a b Hc) as [N1 N2].
  rewrite <- (left_right_length leb X d rows a).
  rewrite <- (map_length y (left_rows leb X d a rows)), <- (map_length y (right_rows leb X d a rows)).
  apply (tr_cut _ _ _ _ _ _ HT); auto.
  - apply (rows_rel_filter _ rows HR).
  - apply (rows_rel_filter _ rows HR).
  - lia.
  - eapply n_cuts_pos; eauto.
Qed.

Lemma cand_rel lvl p p' rows d a b s : rows_rel rows -> Rp p p' ->
  cand leb gap T X y n_dim lvl p rows d a b s ->
  exists s', cand leb' gap' T' X' y' n_dim lvl p' (map phi rows) d (fx d a) (fx d b) s' /\ Rs (length rows) s s'.
Proof.
  intros HR HP (Hd & Hc & m & Hm & ->). eexists. split.
  - split; auto. split; [apply is_cut_rel; auto|]. exists m. split; [apply n_cuts_rel; auto|reflexivity].
  - eapply cut_score_rel; eauto.
Qed.

Lemma cand_rel_inv lvl p p' rows d a' b' s' : rows_rel rows -> Rp p p' ->
  cand leb' gap' T' X' y' n_dim lvl p' (map phi rows) d a' b' s' ->
  exists a b s, a' = fx d a /\ b' = fx d b /\ cand leb gap T X y n_dim lvl p rows d a b s /\ Rs (length rows) s s'.
Proof.
  intros HR HP (Hd & Hc & m & Hm & ->).
  destruct (is_cut_rel_inv d rows a' b' HR Hd Hc) as (a & b & -> & -> & Hc0).
  apply n_cuts_rel_inv in Hm; auto.
  exists a, b. eexists. repeat (split; auto).
  - exists m. split; auto.
  - eapply cut_score_rel; eauto.
Qed.

Theorem opt_transport :
  (forall lvl pa rows t, opt leb gap mid T X y names n_dim lvl pa rows t ->
     forall pa', rows_rel rows -> rows <> [] -> opt_rel Rp pa pa' ->
       Rp (t_prior T pa (length rows) n_dim) (t_prior T' pa' (length rows) n_dim) ->
     exists t', opt leb' gap' mid' T' X' y' names n_dim lvl pa' (map phi rows) t' /\ tree_rel fv Rs Rp t t') /\
  (forall lvl p rows t, opt_child leb gap mid T X y names n_dim lvl p rows t ->
     forall p', rows_rel rows -> rows <> [] -> Rp p p' ->
     exists t', opt_child leb' gap' mid' T' X' y' names n_dim lvl p' (map phi rows) t' /\ tree_rel fv Rs Rp t t').
Proof.
  apply opt_mutind.
  - intros lvl pa rows p Hp Hno pa' HR Hne Hpa HP. rewrite <- Hp in HP.
    set (p' := t_prior T' pa' (length rows) n_dim) in *.
    assert (Hys : map y rows <> []) by (apply map_nonempty; auto).
    assert (Hyok : Forall Yok (map y rows)) by apply HR.
    eexists. split.
    + apply opt_leaf with (prior := p'); [rewrite map_length; auto|].
      intros d a' b' s' Hc. rewrite ys_rel by auto.
      destruct (cand_rel_inv lvl p p' rows d a' b' s' HR HP Hc) as (a & b & s & -> & -> & Hc0 & Hs).
      intros Hgt. apply (Hno d a b s Hc0).
      assert (Hst : Rs (length rows) (t_stop T lvl p (map y rows)) (t_stop T' lvl p' (map fy (map y rows)))).
      { rewrite <- (map_length y rows). apply (tr_stop _ _ _ _ _ _ HT); auto. }
      apply (tr_gt _ _ _ _ _ _ HT _ _ _ _ _ Hs Hst). auto.
    + apply tree_rel_leaf. unfold node_info, info_rel. simpl. rewrite map_length.
      repeat (split; auto). rewrite ys_rel by auto. apply (tr_post _ _ _ _ _ _ HT); auto.
  - intros lvl pa rows p d a b s nm c1 c2 Hp Hc Hgt Hmax Hnm H1 IH1 H2 IH2 pa' HR Hne Hpa HP.
    rewrite <- Hp in HP. set (p' := t_prior T' pa' (length rows) n_dim) in *.
    assert (Hys : map y rows <> []) by (apply map_nonempty; auto).
    assert (Hyok : Forall Yok (map y rows)) by apply HR.
    assert (Hst : Rs (length rows) (t_stop T lvl p (map y rows)) (t_stop T' lvl p' (map y' (map phi rows)))).
    { rewrite ys_rel by auto. rewrite <- (map_length y rows). apply (tr_stop _ _ _ _ _ _ HT); auto. }
    destruct (cand_rel lvl p p' rows d a b s HR HP Hc) as (s' & Hc' & Hs).
    pose proof Hc as (Hd & Hcut & _).
    destruct (is_cut_ne d rows a b Hcut) as [N1 N2].
    destruct (IH1 p') as (c1' & O1 & R1); auto.
    { apply rows_rel_filter; auto. } { intros E; apply N1; rewrite E; auto. }
    destruct (IH2 p') as (c2' & O2 & R2); auto.
    { apply rows_rel_filter; auto. } { intros E; apply N2; rewrite E; auto. }
    eexists. split.
    + eapply opt_split with (a := fx d a) (b := fx d b) (prior := p'); eauto.
      * rewrite map_length; auto.
      * apply (tr_gt _ _ _ _ _ _ HT _ _ _ _ _ Hs Hst). auto.
      * intros d' a' b' s2' Hc2'.
        destruct (cand_rel_inv lvl p p' rows d' a' b' s2' HR HP Hc2') as (a2 & b2 & s2 & -> & -> & Hc2 & Hs2).
        destruct (Hmax d' a2 b2 s2 Hc2) as [M1 M2]. split.
        -- intros Hg. apply M1. apply (tr_gt _ _ _ _ _ _ HT _ _ _ _ _ Hs2 Hs). auto.
        -- intros Hg. destruct M2 as [M|[-> M]]; auto.
           ++ intros Hg'. apply Hg. apply (tr_gt _ _ _ _ _ _ HT _ _ _ _ _ Hs Hs2). auto.
           ++ right. split; auto. rewrite Hleb. auto.
      * rewrite left_rel by auto. exact O1.
      * rewrite right_rel by auto. exact O2.
    + rewrite Hmid by (apply leb_false_le; apply Hcut).
      apply tree_rel_split; auto.
      unfold node_info, info_rel. simpl. rewrite map_length.
      repeat (split; auto). rewrite ys_rel by auto. apply (tr_post _ _ _ _ _ _ HT); auto.
  - intros lvl p rows t Hl Hm Ho0 IH p' HR Hne HP.
    assert (Hys : map y rows <> []) by (apply map_nonempty; auto).
    assert (Hyok : Forall Yok (map y rows)) by apply HR.
    assert (Hch : Rp (t_child_prior T p (map y rows)) (t_child_prior T' p' (map y' (map phi rows)))).
    { rewrite ys_rel by auto. apply (tr_child _ _ _ _ _ _ HT); auto. }
    destruct (IH (Some (t_child_prior T' p' (map y' (map phi rows))))) as (t' & O & R); auto.
    { apply (tr_prior _ _ _ _ _ _ HT). auto. }
    exists t'. split; auto. apply opt_child_fit; auto.
    + rewrite map_length; auto.
    + rewrite ys_rel by auto. apply (tr_many _ _ _ _ _ _ HT); auto.
  - intros lvl p rows Hor p' HR Hne HP.
    assert (Hys : map y rows <> []) by (apply map_nonempty; auto).
    assert (Hyok : Forall Yok (map y rows)) by apply HR.
    eexists. split.
    + apply opt_child_leaf. rewrite map_length. destruct Hor as [H|H]; auto. right.
      rewrite ys_rel by auto. intros Hm. apply H. apply (tr_many _ _ _ _ _ _ HT); auto.
    + apply tree_rel_leaf. unfold info_rel. simpl. rewrite map_length, ys_rel by auto.
      repeat (split; auto).
      * apply (tr_child _ _ _ _ _ _ HT); auto.
      * apply (tr_post _ _ _ _ _ _ HT); auto.
Qed.

End Transport.
