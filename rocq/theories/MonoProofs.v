(** * MonoProofs: strictly increasing feature changes keep the partition of the training rows. *)
From Coq Require Import Permutation.
From Verif Require Import Prelude Lists Tree Perp Gamma RealOps Clf Reg Api Spec PredictProofs FitProofs
  StructProofs PruneProofs OptSpec OptProofs OptFit OptNodes Transport ClfSpec ClfProofs RegSpec RegProofs
  ApiSpec ApiProofs Equiv MonoSpec.
Local Open Scope nat_scope.

(** Trees with relabelled descriptors. *)
Fixpoint map_desc {V V' S P} (fv : nat -> V -> V') (t : tree (pdesc string V) S P) : tree (pdesc string V') S P :=
  match t with
  | Leaf i => Leaf i
  | Split i s a b c1 c2 => Split i (mkDesc (sd_dim s) (sd_name s) (fv (sd_dim s) (sd_val s))) a b (map_desc fv c1) (map_desc fv c2)
  end.

Lemma info_rel_eq {P} (i i' : ninfo P) : info_rel eq i i' -> i' = i.
Proof.
  destruct i as [p l n m q], i' as [p' l' n' m' q']. intros (H1 & H2 & H3 & H4 & H5). simpl in *. subst.
  destruct p, p'; simpl in H1; subst; tauto.
Qed.
Lemma tree_rel_map {V V' S P} fv (t : tree (pdesc string V) S P) (t' : tree (pdesc string V') S P) :
  tree_rel fv (fun _ => eq) eq t t' -> t' = map_desc fv t.
Proof.
  induction 1 as [i i' H|i i' d nm x a a' b b' c1 c1' c2 c2' H Ha Hb H1 IH1 H2 IH2]; cbn [map_desc sd_dim sd_name sd_val].
  - f_equal. apply info_rel_eq; auto.
  - apply info_rel_eq in H. subst. reflexivity.
Qed.

Section Pair.
Context {A V Y P S NM : Type}.
Variables leb gap : A -> A -> bool.
Variable mid : A -> A -> V.
Variable T : tgt Y P S.
Variable X : nat -> nat -> A.
Variable y : nat -> Y.
Variable names : list NM.
Variable n_dim : nat.

(** Keep the two neighbouring values instead of a threshold. *)
Lemma opt_pair :
  (forall lvl pa rows t, opt leb gap mid T X y names n_dim lvl pa rows t ->
     exists t0, opt leb gap pair T X y names n_dim lvl pa rows t0) /\
  (forall lvl p rows t, opt_child leb gap mid T X y names n_dim lvl p rows t ->
     exists t0, opt_child leb gap pair T X y names n_dim lvl p rows t0).
Proof.
  apply opt_mutind.
  - intros lvl pa rows p Hp Hno. eexists. apply opt_leaf with (prior := p); eauto.
  - intros lvl pa rows p d a b s nm c1 c2 Hp Hc Hgt Hmax Hnm H1 (t1 & IH1) H2 (t2 & IH2).
    eexists. eapply opt_split with (prior := p); eauto.
  - intros lvl p rows t Hl Hm Ho (t0 & IH). exists t0. apply opt_child_fit; auto.
  - intros lvl p rows Hor. eexists. apply opt_child_leaf; auto.
Qed.
End Pair.

Section Alike.
Context {Y P S : Type}.
Variable T : tgt Y P S.
Variable X X' : nat -> nat -> R.
Variable y : nat -> Y.
Variable names : list string.
Variable n_dim : nat.
Variable g : nat -> R -> R.
Variable prec : R.
Hypothesis Hg : increasing g.
Hypothesis HX : forall i f, X' i f = g f (X i f).

Lemma inc_le f a b : (a <= b)%R <-> (g f a <= g f b)%R.
Proof.
  split.
  - intros [H|H]; [left; apply Hg; auto|subst; lra].
  - intros H. destruct (Rle_or_lt a b) as [E|E]; auto. apply (Hg f) in E. lra.
Qed.
Lemma cut_left rows f a b r : is_cut Rleb (gap_R prec) X f rows a b -> In r rows ->
  Rltb (X r f) (mid_R a b) = Rleb (X r f) a.
Proof.
  intros (_ & _ & Hl & _ & H) Hr. apply Rleb_false in Hl. unfold mid_R.
  destruct (H r Hr) as [Ha|Ha]; [rewrite Ha|].
  - apply Rleb_true in Ha. apply Rltb_true. lra.
  - apply Rleb_true in Ha. rewrite (proj2 (Rleb_false (X r f) a)) by lra. apply Rltb_false. lra.
Qed.
Lemma Rgeb_Rltb a b : Rgeb a b = negb (Rltb a b).
Proof.
  destruct (Rltb a b) eqn:E; cbn [negb].
  - apply Rltb_true in E. apply Rgeb_false. lra.
  - apply Rltb_false in E. apply Rgeb_true. lra.
Qed.
Lemma cut_image rows f a b r : is_cut Rleb (gap_R prec) X f rows a b -> In r rows ->
  Rltb (X' r f) (mid_R (g f a) (g f b)) = Rleb (X r f) a.
Proof.
  intros (_ & _ & Hl & _ & H) Hr. apply Rleb_false in Hl. apply (Hg f) in Hl. rewrite HX. unfold mid_R.
  destruct (H r Hr) as [Ha|Ha]; [rewrite Ha|].
  - apply Rleb_true in Ha. apply (inc_le f) in Ha. apply Rltb_true. lra.
  - apply Rleb_true in Ha.
    assert (Rleb (X r f) a = false) as ->.
    { apply Rleb_false. apply Rnot_le_lt. intros E. apply (inc_le f) in E. apply (inc_le f) in Ha. lra. }
    apply (inc_le f) in Ha. apply Rltb_false. lra.
Qed.

Notation th := (fun (_ : nat) (ab : R * R) => mid_R (fst ab) (snd ab)).
Notation th' := (fun (f : nat) (ab : R * R) => mid_R (g f (fst ab)) (g f (snd ab))).

Lemma opt_alike :
  (forall lvl pa rows t, opt Rleb (gap_R prec) pair T X y names n_dim lvl pa rows t ->
     alike X X' rows (map_desc th t) (map_desc th' t)) /\
  (forall lvl p rows t, opt_child Rleb (gap_R prec) pair T X y names n_dim lvl p rows t ->
     alike X X' rows (map_desc th t) (map_desc th' t)).
Proof.
  apply opt_mutind.
  - intros. reflexivity.
  - intros lvl pa rows p d a b s nm c1 c2 Hp Hc Hgt Hmax Hnm H1 IH1 H2 IH2.
    pose proof Hc as (_ & Hcut & _). cbn [map_desc alike sd_dim sd_name sd_val fst snd].
    repeat (split; [reflexivity|]). split; [|split].
    + intros r Hr. unfold goes_left, goes_right. cbn [sd_dim sd_val]. rewrite !Rgeb_Rltb.
      rewrite (cut_left rows d a b r Hcut Hr), (cut_image rows d a b r Hcut Hr). auto.
    + replace (filter _ rows) with (left_rows Rleb X d a rows); auto.
      apply filter_ext_in. intros r Hr. unfold goes_left. cbn [sd_dim sd_val].
      rewrite (cut_left rows d a b r Hcut Hr). auto.
    + replace (filter _ rows) with (right_rows Rleb X d a rows); auto.
      apply filter_ext_in. intros r Hr. unfold goes_right. cbn [sd_dim sd_val].
      rewrite Rgeb_Rltb, (cut_left rows d a b r Hcut Hr). auto.
  - intros; auto.
  - intros; reflexivity.
Qed.

End Alike.

(** Pruning and answers. *)
Section Answers.
Context {P S : Type}.
Variable X X' : nat -> nat -> R.
Lemma prune_alike (same : ninfo P -> ninfo P -> bool) : forall (t t' : tree (pdesc string R) S P) rows,
  alike X X' rows t t' -> alike X X' rows (prune_bu same t) (prune_bu same t').
Proof.
  induction t as [i|i s a b c1 IH1 c2 IH2]; intros [i'|i' s' a' b' c1' c2'] rows H; cbn [alike] in H; try tauto.
  destruct H as (-> & Hd & Hn & -> & -> & Hgo & H1 & H2).
  apply IH1 in H1. apply IH2 in H2. cbn [prune_bu].
  destruct (prune_bu same c1) as [i1|i1 s1 a1 b1 l1 r1], (prune_bu same c1') as [i1'|i1' s1' a1' b1' l1' r1'];
    try (cbn [alike] in H1; tauto).
  - destruct (prune_bu same c2) as [i2|i2 s2 a2 b2 l2 r2], (prune_bu same c2') as [i2'|i2' s2' a2' b2' l2' r2'];
      try (cbn [alike] in H2; tauto).
    + cbn [alike] in H1, H2. subst. destruct (same i1' i2'); [reflexivity|]. cbn [alike]. auto 10.
    + cbn [alike]. cbn [alike] in H1. split; auto. repeat (split; [assumption || reflexivity|]). exact H2.
  - destruct (prune_bu same c2) as [i2|i2 s2 a2 b2 l2 r2], (prune_bu same c2') as [i2'|i2' s2' a2' b2' l2' r2'];
      try (cbn [alike] in H2; tauto).
    + cbn [alike]. cbn [alike] in H1. split; auto. repeat (split; [assumption || reflexivity|]). exact H2.
    + cbn [alike]. cbn [alike] in H1. split; auto. repeat (split; [assumption || reflexivity|]). exact H2.
Qed.

Lemma alike_lookup {O} (val : ninfo P -> O) r : forall (t t' : tree (pdesc string R) S P) rows,
  alike X X' rows t t' -> In r rows ->
  lookup (goes_left X) (goes_right X) val t r = lookup (goes_left X') (goes_right X') val t' r.
Proof.
  induction t as [i|i s a b c1 IH1 c2 IH2]; intros [i'|i' s' a' b' c1' c2'] rows H Hr; cbn [alike] in H; try tauto.
  - subst. reflexivity.
  - destruct H as (-> & Hd & Hn & -> & -> & Hgo & H1 & H2). cbn [lookup].
    destruct (Hgo r Hr) as [<- <-].
    destruct (goes_right X s r) eqn:E2.
    + rewrite (IH2 _ _ H2) by (apply filter_In; auto).
      destruct (lookup _ _ _ c2' r); auto.
      destruct (goes_left X s r) eqn:E1; auto. apply (IH1 _ _ H1). apply filter_In; auto.
    + destruct (goes_left X s r) eqn:E1; auto. apply (IH1 _ _ H1). apply filter_In; auto.
Qed.
Lemma alike_predict {O} (val : ninfo P -> O) n init (t t' : tree (pdesc string R) S P) : alike X X' (seq 0 n) t t' ->
  predict_rows (goes_left X') (goes_right X') val t' n init = predict_rows (goes_left X) (goes_right X) val t n init.
Proof.
  intros H. rewrite !predict_rows_spec. apply map_ext_in. intros r Hr. rewrite (alike_lookup val r _ _ _ H Hr). auto.
Qed.
End Answers.

Section Fit.
Context {P : Type}.
Variables srt srt' : (nat -> R) -> nat -> list nat.
Variable L : lik R P R.
Variable T : tgt R P R.
Variable Pok : P -> Prop.
Variable Yok : R -> Prop.
Variable same : ninfo P -> ninfo P -> bool.
Hypothesis Hsrt : sorts Rleb srt.
Hypothesis Hsrt' : sorts Rleb srt'.
Hypothesis HL : lik_law L T Pok Yok.
Hypothesis HT : tgt_perm T.
Variable g : nat -> R -> R.
Hypothesis Hg : increasing g.

Lemma inc_leb f a b : Rleb (g f a) (g f b) = Rleb a b.
Proof.
  destruct (Rleb a b) eqn:E.
  - apply Rleb_true in E. apply Rleb_true. apply inc_le; auto.
  - apply Rleb_false in E. apply Rleb_false. apply Hg; auto.
Qed.
Lemma inc_gap f a b : Rleb a b = true -> gap_R 0 (g f a) (g f b) = gap_R 0 a b.
Proof.
  intros _. unfold gap_R. destruct (Rgtb (b - a) 0) eqn:E.
  - apply Rgtb_true in E. apply Rgtb_true. assert (H : (a < b)%R) by lra. apply (Hg f) in H. lra.
  - apply Rgtb_false in E. apply Rgtb_false. assert (H : (b <= a)%R) by lra. apply (inc_le g Hg f) in H. lra.
Qed.

Lemma mono_fit pr lvl pa d t : tset_ok d ->
  (forall i, i < ts_n d -> Yok (ts_y d i)) -> Pok (t_prior T pa (ts_n d) (ts_dim d)) ->
  perp_fit (feat_R 0 srt) L same pr lvl pa d = Ok t ->
  exists t', perp_fit (feat_R 0 srt') L same pr lvl pa (map_features g d) = Ok t' /\
    alike (ts_X d) (map_X g (ts_X d)) (all_rows d) t t'.
Proof.
  intros Hd HY HP E.
  destruct (real_fit_inv srt 0 L T Pok Yok same Hsrt (Rle_refl 0) HL HT pr lvl pa d t Hd HY HP E) as (u & Ho & Et & _).
  destruct (real_fit srt' 0 L T Pok Yok same Hsrt' (Rle_refl 0) HL HT pr lvl pa (map_features g d)) as (t' & u' & E' & Ho' & Et' & _); auto.
  exists t'. split; auto.
  destruct (proj1 (opt_pair Rleb (gap_R 0) mid_R T (ts_X d) (ts_y d) (ts_names d) (ts_dim d)) _ _ _ _ Ho) as (v & Hv).
  assert (Hrows : forall (X' : nat -> nat -> R) (fx : nat -> R -> R), (forall i f, X' i f = fx f (ts_X d i f)) ->
     rows_rel (ts_X d) (ts_y d) X' (ts_y d) (ts_dim d) (fun i => i) fx (fun y => y) Yok (all_rows d)).
  { intros X' fx H. split; [|split]; auto.
    rewrite Forall_forall. intros z Hz. apply in_map_iff in Hz as (i & <- & Hi). apply in_seq in Hi. apply HY. lia. }
  assert (Hfun : forall (X' : nat -> nat -> R) (fx : nat -> R -> R) (fv : nat -> R * R -> R) s, (forall i f, X' i f = fx f (ts_X d i f)) ->
     (forall f a b, Rleb (fx f a) (fx f b) = Rleb a b) ->
     (forall f a b, Rleb a b = true -> gap_R 0 (fx f a) (fx f b) = gap_R 0 a b) ->
     (forall f a b, mid_R (fx f a) (fx f b) = fv f (a, b)) ->
     opt Rleb (gap_R 0) mid_R T X' (ts_y d) (ts_names d) (ts_dim d) lvl pa (all_rows d) s ->
     s = map_desc fv v).
  { intros X' fx fv s HX H1 H2 H3 Hs.
    destruct (proj1 (opt_transport Rleb (gap_R 0) Rleb (gap_R 0) pair mid_R T T (ts_X d) (ts_y d) X' (ts_y d)
       (ts_names d) (ts_dim d) (fun i => i) fx fv (fun y => y) Yok (fun _ => eq) eq R_order R_order H1 H2 (fun f a b _ => H3 f a b)
       (tgt_rel_id T Yok)) _ _ _ _ Hv pa) as (w & Hw & Hr); auto using opt_rel_refl, all_rows_ne.
    apply tree_rel_map in Hr. subst w.
    apply (proj1 (opt_functional Rleb (gap_R 0) mid_R (feat_R 0 srt) T X' (ts_y d) (ts_names d)
          (feat_R_law 0 srt (Rle_refl 0) Hsrt) (ts_dim d)) _ _ _ _ Hs).
    rewrite map_id in Hw. exact Hw. }
  assert (Eu : u = map_desc (fun _ ab => mid_R (fst ab) (snd ab)) v).
  { apply (Hfun (ts_X d) (fun _ x => x)); auto. }
  assert (Eu' : u' = map_desc (fun f ab => mid_R (g f (fst ab)) (g f (snd ab))) v).
  { apply (Hfun (map_X g (ts_X d)) g); auto using inc_leb, inc_gap. }
  assert (Ha : alike (ts_X d) (map_X g (ts_X d)) (all_rows d) u u').
  { subst u u'. eapply (proj1 (opt_alike T (ts_X d) (map_X g (ts_X d)) (ts_y d) (ts_names d) (ts_dim d) g 0 Hg (fun _ _ => eq_refl))). exact Hv. }
  subst t t'. destruct pr; auto. apply prune_alike; auto.
Qed.
End Fit.

Lemma clf_mono srt srt' k prior h d g t : clf_setting srt k prior h d -> sorts Rleb srt' -> h_prec h = 0%R -> increasing g ->
  clf_fit srt h d = Ok t ->
  exists t', clf_fit srt' h (map_features g d) = Ok t' /\ alike (ts_X d) (map_X g (ts_X d)) (all_rows d) t t' /\
    clf_predict t' (map_X g (ts_X d)) (ts_n d) = clf_predict t (ts_X d) (ts_n d) /\
    clf_predict_proba t' (map_X g (ts_X d)) (ts_n d) = clf_predict_proba t (ts_X d) (ts_n d).
Proof.
  intros H Hs' Hp Hg E. pose proof H as (Hs & (Hpp & Hdel & Hprec) & Hd & _).
  unfold clf_fit in *. rewrite Hp in *.
  destruct (mono_fit srt srt' (clf_lik (h_pp h) (h_delta h)) (clf_tgt (h_pp h) (h_delta h)) (clf_pok k) (clf_yok k) clf_same
    Hs Hs' (clf_law k _ _ Hdel) (clf_tgt_perm _ _) g Hg (h_prune h) 0 (h_prior h) d t) as (t' & E' & Ha); auto.
  - exact (clf_setting_Yok _ _ _ _ _ H).
  - exact (clf_setting_Pok _ _ _ _ _ H).
  - exists t'. split; auto. split; auto. split; apply alike_predict; auto.
Qed.
Lemma reg_mono srt srt' prior h d g t : reg_setting srt prior h d -> sorts Rleb srt' -> h_prec h = 0%R -> increasing g ->
  reg_fit srt h d = Ok t ->
  exists t', reg_fit srt' h (map_features g d) = Ok t' /\ alike (ts_X d) (map_X g (ts_X d)) (all_rows d) t t' /\
    reg_predict t' (map_X g (ts_X d)) (ts_n d) = reg_predict t (ts_X d) (ts_n d).
Proof.
  intros H Hs' Hp Hg E. pose proof H as (Hs & (Hpp & Hdel & Hprec) & Hd & _).
  unfold reg_fit in *. rewrite Hp in *.
  destruct (mono_fit srt srt' (reg_lik (h_pp h) (h_delta h)) (reg_tgt (h_pp h) (h_delta h)) reg_pok (fun _ => True) reg_same
    Hs Hs' (reg_law _ _ Hdel) (reg_tgt_perm _ _) g Hg (h_prune h) 0 (h_prior h) d t) as (t' & E' & Ha); auto.
  - exact (reg_setting_Pok _ _ _ _ H).
  - exists t'. split; auto. split; auto. apply alike_predict; auto.
Qed.
