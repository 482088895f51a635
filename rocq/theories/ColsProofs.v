(** * ColsProofs: the order of the columns only matters for ties. *)
From Coq Require Import Permutation.
From Coq Require String.
From Verif Require Import Prelude Lists Tree Perp Gamma RealOps Clf Reg Api Spec PredictProofs FitProofs
  StructProofs PruneProofs OptSpec OptProofs OptFit OptNodes ClfSpec ClfProofs RegSpec RegProofs
  ApiSpec ApiProofs SplitFacts MonoProofs ColsSpec.
Local Open Scope nat_scope.

Section Cols.
Context {P : Type}.
Variable T : tgt R P R.
Variables pp prec : R.
Variable ev : P -> list R -> R.
Variable dflt : nat -> P.
Variable d : tset R R.
Variables sigma tau : nat -> nat.
Hypothesis HT : scored T pp ev.
Hypothesis Hprior : forall pa n, t_prior T pa n (ts_dim d) = match pa with Some p => p | None => dflt n end.
Hypothesis Hperm : column_perm (ts_dim d) sigma tau.
Notation d' := (permute_columns sigma d).
Notation cut_ X := (is_cut Rleb (gap_R prec) X).
Notation cand_ e := (cand Rleb (gap_R prec) T (ts_X e) (ts_y e) (ts_dim e)).
Notation opt_ e := (opt Rleb (gap_R prec) mid_R T (ts_X e) (ts_y e) (ts_names e) (ts_dim e)).
Notation optc_ e := (opt_child Rleb (gap_R prec) mid_R T (ts_X e) (ts_y e) (ts_names e) (ts_dim e)).

Lemma col_X f i : ts_X d' i f = ts_X d i (sigma f).
Proof. reflexivity. Qed.
Lemma col_cut f rows a b : cut_ (ts_X d') f rows a b <-> cut_ (ts_X d) (sigma f) rows a b.
Proof. reflexivity. Qed.
Lemma col_ncuts f rows m : n_cuts Rleb (gap_R prec) (ts_X d') f rows m <-> n_cuts Rleb (gap_R prec) (ts_X d) (sigma f) rows m.
Proof. reflexivity. Qed.
Lemma col_cand lvl p rows f a b s : f < ts_dim d ->
  (cand_ d' lvl p rows f a b s <-> cand_ d lvl p rows (sigma f) a b s).
Proof.
  intros Hf. unfold cand. rewrite col_cut. split; intros (_ & H); (split; [|exact H]).
  - apply (Hperm f Hf).
  - exact Hf.
Qed.
Lemma col_cand_tau lvl p rows f a b s : f < ts_dim d ->
  (cand_ d' lvl p rows (tau f) a b s <-> cand_ d lvl p rows f a b s).
Proof. intros Hf. destruct (Hperm f Hf) as (_ & Ht & E & _). rewrite (col_cand lvl p rows (tau f)), E by auto. reflexivity. Qed.
Lemma col_left f a rows : f < ts_dim d -> left_rows Rleb (ts_X d') (tau f) a rows = left_rows Rleb (ts_X d) f a rows.
Proof. intros Hf. destruct (Hperm f Hf) as (_ & _ & E & _). unfold left_rows. simpl. unfold permute_X. rewrite E. reflexivity. Qed.
Lemma col_right f a rows : f < ts_dim d -> right_rows Rleb (ts_X d') (tau f) a rows = right_rows Rleb (ts_X d) f a rows.
Proof. intros Hf. destruct (Hperm f Hf) as (_ & _ & E & _). unfold right_rows. simpl. unfold permute_X. rewrite E. reflexivity. Qed.
Lemma col_name f nm : f < ts_dim d -> nth_error (ts_names d) f = Some nm -> nth_error (ts_names d') (tau f) = Some nm.
Proof.
  intros Hf E. destruct (Hperm f Hf) as (_ & Ht & Es & _). cbn [permute_columns ts_names].
  rewrite nth_error_map, nth_error_seq. apply Nat.ltb_lt in Ht. rewrite Ht. cbn [option_map Nat.add]. rewrite Es.
  f_equal. apply nth_error_nth. exact E.
Qed.

Lemma opt_cols :
  (forall lvl pa rows t, opt_ d lvl pa rows t ->
     nodes_ok (goes_left (ts_X d)) (goes_right (ts_X d)) (no_rival pp prec ev dflt d) rows t -> opt_ d' lvl pa rows (renumber tau t)) /\
  (forall lvl p rows t, optc_ d lvl p rows t ->
     nodes_ok (goes_left (ts_X d)) (goes_right (ts_X d)) (no_rival pp prec ev dflt d) rows t -> optc_ d' lvl p rows (renumber tau t)).
Proof.
  apply opt_mutind.
  - intros lvl pa rows p Hp Hno _. apply (opt_leaf _ _ _ T (ts_X d') (ts_y d') (ts_names d') (ts_dim d')); auto.
    intros f a b s Hc. pose proof Hc as (Hf & _). apply col_cand in Hc; auto. exact (Hno _ _ _ _ Hc).
  - intros lvl pa rows p f a b s nm c1 c2 Hp Hc Hgt Hmax Hnm H1 IH1 H2 IH2 (Hn & N1 & N2).
    pose proof Hc as (Hf & Hcut & _).
    assert (El : filter (goes_left (ts_X d) (mkDesc f nm (mid_R a b))) rows = left_rows Rleb (ts_X d) f a rows).
    { apply filter_ext_in. intros r Hr. unfold goes_left. cbn [sd_dim sd_val]. eapply cut_left; eauto. }
    assert (Er : filter (goes_right (ts_X d) (mkDesc f nm (mid_R a b))) rows = right_rows Rleb (ts_X d) f a rows).
    { apply filter_ext_in. intros r Hr. unfold goes_right. cbn [sd_dim sd_val]. rewrite Rgeb_Rltb. f_equal. eapply cut_left; eauto. }
    rewrite El in N1. rewrite Er in N2.
    cbn [renumber sd_dim sd_name sd_val].
    apply (opt_split _ _ _ T (ts_X d') (ts_y d') (ts_names d') (ts_dim d')) with (prior := p) (a := a) (b := b); auto.
    + apply col_cand_tau; auto.
    + intros f' a' b' s' Hc'. pose proof Hc' as (Hf' & _). apply col_cand in Hc'; auto.
      destruct (Hmax _ _ _ _ Hc') as [M1 M2]. split; [exact M1|]. intros Hng.
      assert (E : sigma f' = f).
      { unfold no_rival, node_info, node_prior in Hn. cbn [i_prior i_level i_n_data sd_dim] in Hn.
        rewrite Hprior in Hp. rewrite <- Hp in Hn. apply (Hn (sigma f') a' b' s').
        - apply (cand_value T pp prec ev d HT). exact Hc'.
        - destruct HT as (Eg & _). rewrite Eg in *. lra. }
      right. split.
      * rewrite <- E. apply (Hperm f' Hf').
      * destruct (M2 Hng) as [M|[_ M]]; [lia|exact M].
    + apply col_name; auto.
    + rewrite col_left by auto. apply IH1. exact N1.
    + rewrite col_right by auto. apply IH2. exact N2.
  - intros lvl p rows t Hl Hm Ho IH N. apply opt_child_fit; auto.
  - intros lvl p rows Hor _. apply (opt_child_leaf _ _ _ T (ts_X d') (ts_y d') (ts_names d') (ts_dim d')); auto.
Qed.
End Cols.

Lemma prune_renumber {V S P} (same : ninfo P -> ninfo P -> bool) tau (t : tree (pdesc string V) S P) :
  prune_bu same (renumber tau t) = renumber tau (prune_bu same t).
Proof.
  induction t as [i|i s a b c1 IH1 c2 IH2]; [reflexivity|]. cbn [renumber prune_bu]. rewrite IH1, IH2.
  destruct (prune_bu same c1) as [i1|], (prune_bu same c2) as [i2|]; try reflexivity.
  cbn [renumber]. destruct (same i1 i2); reflexivity.
Qed.

(** All split dimensions are columns. *)
Definition dims_below {V S P} (n : nat) (t : tree (pdesc string V) S P) : Prop := Forall (fun s => sd_dim (fst (fst s)) < n) (splits t).

Section Fit.
Context {P : Type}.
Variables srt srt' : (nat -> R) -> nat -> list nat.
Variable L : lik R P R.
Variable T : tgt R P R.
Variable Pok : P -> Prop.
Variable Yok : R -> Prop.
Variable same : ninfo P -> ninfo P -> bool.
Variables pp prec : R.
Variable ev : P -> list R -> R.
Variable dflt : nat -> P.
Hypothesis Hsrt : sorts Rleb srt.
Hypothesis Hsrt' : sorts Rleb srt'.
Hypothesis Hprec : (0 <= prec)%R.
Hypothesis HL : lik_law L T Pok Yok.
Hypothesis HT : tgt_perm T.
Hypothesis HS : scored T pp ev.
Variable d : tset R R.
Hypothesis Hprior : forall pa n, t_prior T pa n (ts_dim d) = match pa with Some p => p | None => dflt n end.
Variables sigma tau : nat -> nat.
Hypothesis Hperm : column_perm (ts_dim d) sigma tau.

Lemma cols_fit pr lvl pa t0 t : tset_ok d ->
  (forall i, i < ts_n d -> Yok (ts_y d i)) -> Pok (t_prior T pa (ts_n d) (ts_dim d)) ->
  perp_fit (feat_R prec srt) L same false lvl pa d = Ok t0 ->
  every_node d t0 (no_rival pp prec ev dflt d) ->
  perp_fit (feat_R prec srt) L same pr lvl pa d = Ok t ->
  perp_fit (feat_R prec srt') L same pr lvl pa (permute_columns sigma d) = Ok (renumber tau t).
Proof.
  intros Hd HY HP E0 Hn E.
  destruct (real_fit_inv srt prec L T Pok Yok same Hsrt Hprec HL HT false lvl pa d t0 Hd HY HP E0) as (u & Ho & Eu & _). subst u.
  destruct (real_fit_inv srt prec L T Pok Yok same Hsrt Hprec HL HT pr lvl pa d t Hd HY HP E) as (u & Hu & Et & _).
  assert (u = t0) as ->.
  { apply (proj1 (opt_functional Rleb (gap_R prec) mid_R (feat_R prec srt) T (ts_X d) (ts_y d) (ts_names d)
          (feat_R_law prec srt Hprec Hsrt) (ts_dim d)) _ _ _ _ Hu). exact Ho. }
  assert (Hd' : tset_ok (permute_columns sigma d)).
  { destruct Hd as (A & B & C & D). repeat split; auto. cbn [permute_columns ts_names ts_dim]. rewrite map_length, seq_length. lia. }
  destruct (real_fit srt' prec L T Pok Yok same Hsrt' Hprec HL HT pr lvl pa (permute_columns sigma d) Hd') as (t' & u' & E' & Ho' & Et' & _); auto.
  rewrite E'. f_equal.
  pose proof (proj1 (opt_cols T pp prec ev dflt d sigma tau HS Hprior Hperm) _ _ _ _ Ho Hn) as Hr.
  assert (u' = renumber tau t0) as ->.
  { apply (proj1 (opt_functional Rleb (gap_R prec) mid_R (feat_R prec srt) T (ts_X (permute_columns sigma d)) (ts_y d) (ts_names (permute_columns sigma d))
          (feat_R_law prec srt Hprec Hsrt) (ts_dim d)) _ _ _ _ Ho'). exact Hr. }
  subst t t'. destruct pr; auto. apply prune_renumber.
Qed.
End Fit.

(** Answers of the renumbered tree on permuted queries. *)
Lemma renumber_lookup {S P O} (val : ninfo P -> O) n sigma tau Xq r : column_perm n sigma tau ->
  forall t : tree (pdesc string R) S P, dims_below n t ->
  lookup (goes_left (permute_X sigma Xq)) (goes_right (permute_X sigma Xq)) val (renumber tau t) r = lookup (goes_left Xq) (goes_right Xq) val t r.
Proof.
  intros Hp. induction t as [i|i s a b c1 IH1 c2 IH2]; intros H; [reflexivity|].
  unfold dims_below in H. cbn [splits] in H. inversion H as [|? ? Hs H12]; subst. apply Forall_app in H12 as [Hc1 Hc2].
  cbn [fst] in Hs. destruct (Hp _ Hs) as (_ & _ & E & _).
  cbn [renumber lookup]. rewrite (IH1 Hc1), (IH2 Hc2).
  assert (goes_left (permute_X sigma Xq) (mkDesc (tau (sd_dim s)) (sd_name s) (sd_val s)) r = goes_left Xq s r) as ->.
  { unfold goes_left, permute_X. cbn [sd_dim sd_val]. rewrite E. reflexivity. }
  assert (goes_right (permute_X sigma Xq) (mkDesc (tau (sd_dim s)) (sd_name s) (sd_val s)) r = goes_right Xq s r) as ->.
  { unfold goes_right, permute_X. cbn [sd_dim sd_val]. rewrite E. reflexivity. }
  reflexivity.
Qed.
Lemma renumber_predict {S P O} (val : ninfo P -> O) n sigma tau Xq m init (t : tree (pdesc string R) S P) : column_perm n sigma tau -> dims_below n t ->
  predict_rows (goes_left (permute_X sigma Xq)) (goes_right (permute_X sigma Xq)) val (renumber tau t) m init =
  predict_rows (goes_left Xq) (goes_right Xq) val t m init.
Proof. intros Hp Ht. rewrite !predict_rows_spec. apply map_ext. intros r. rewrite (renumber_lookup val n) by auto. reflexivity. Qed.

Lemma opt_dims {A V Y P S} leb gap (mid : A -> A -> V) (T : tgt Y P S) X y names n_dim :
  (forall lvl pa rows t, opt leb gap mid T X y names n_dim lvl pa rows t -> dims_below n_dim t) /\
  (forall lvl p rows t, opt_child leb gap mid T X y names n_dim lvl p rows t -> dims_below n_dim t).
Proof.
  apply opt_mutind; try (intros; unfold dims_below in *; cbn [splits]; auto; fail).
  intros lvl pa rows p f a b s nm c1 c2 Hp (Hf & _) Hgt Hmax Hnm H1 IH1 H2 IH2. unfold dims_below in *. cbn [splits].
  constructor; [exact Hf|]. apply Forall_app. auto.
Qed.
Lemma dims_prune {V S P} (same : ninfo P -> ninfo P -> bool) n (t : tree (pdesc string V) S P) : dims_below n t -> dims_below n (prune_bu same t).
Proof.
  unfold dims_below. induction t as [i|i s a b c1 IH1 c2 IH2]; intros H; [exact H|].
  cbn [splits] in H. inversion H as [|? ? Hs H12]; subst. apply Forall_app in H12 as [Hc1 Hc2].
  specialize (IH1 Hc1). specialize (IH2 Hc2). cbn [prune_bu].
  destruct (prune_bu same c1) as [i1|i1 s1 a1 b1 l1 r1], (prune_bu same c2) as [i2|i2 s2 a2 b2 l2 r2];
    [destruct (same i1 i2); [constructor|]| | |]; cbn [splits] in *; constructor; auto; apply Forall_app; auto.
Qed.

Lemma clf_cols srt srt' k prior h d sigma tau t0 t : clf_setting srt k prior h d -> sorts Rleb srt' -> column_perm (ts_dim d) sigma tau ->
  clf_fit srt (mkHyper (h_pp h) (h_prior h) (h_delta h) false (h_prec h)) d = Ok t0 ->
  every_node d t0 (no_rival (h_pp h) (h_prec h) clf_ev (clf_dflt (ts_dim d)) d) ->
  clf_fit srt h d = Ok t ->
  clf_fit srt' h (permute_columns sigma d) = Ok (renumber tau t) /\
  forall Xq m, clf_predict (renumber tau t) (permute_X sigma Xq) m = clf_predict t Xq m /\
    clf_predict_proba (renumber tau t) (permute_X sigma Xq) m = clf_predict_proba t Xq m.
Proof.
  intros H Hs' Hp E0 Hn E. pose proof H as (Hs & (Hpp & Hdel & Hprec) & Hd & _). split.
  - apply (cols_fit srt srt' (clf_lik (h_pp h) (h_delta h)) (clf_tgt (h_pp h) (h_delta h)) (clf_pok k) (clf_yok k) clf_same
      (h_pp h) (h_prec h) clf_ev (clf_dflt (ts_dim d)) Hs Hs' Hprec (clf_law k _ _ Hdel) (clf_tgt_perm _ _) (clf_scored _ _) d) with (t0 := t0); auto.
    + exact (clf_setting_Yok _ _ _ _ _ H).
    + exact (clf_setting_Pok _ _ _ _ _ H).
  - assert (Hb : dims_below (ts_dim d) t).
    { destruct (clf_fit_opt srt k prior h d H) as (t1 & u & E1 & Ho & Et & _). rewrite E in E1. injection E1 as <-. subst t.
      apply (proj1 (opt_dims _ _ _ _ _ _ _ _)) in Ho. destruct (h_prune h); auto using dims_prune. }
    intros Xq m. split; eapply renumber_predict; eauto.
Qed.
Lemma reg_cols srt srt' prior h d sigma tau t0 t : reg_setting srt prior h d -> sorts Rleb srt' -> column_perm (ts_dim d) sigma tau ->
  reg_fit srt (mkHyper (h_pp h) (h_prior h) (h_delta h) false (h_prec h)) d = Ok t0 ->
  every_node d t0 (no_rival (h_pp h) (h_prec h) ng_logev default_ng d) ->
  reg_fit srt h d = Ok t ->
  reg_fit srt' h (permute_columns sigma d) = Ok (renumber tau t) /\
  forall Xq m, reg_predict (renumber tau t) (permute_X sigma Xq) m = reg_predict t Xq m.
Proof.
  intros H Hs' Hp E0 Hn E. pose proof H as (Hs & (Hpp & Hdel & Hprec) & Hd & _). split.
  - apply (cols_fit srt srt' (reg_lik (h_pp h) (h_delta h)) (reg_tgt (h_pp h) (h_delta h)) reg_pok (fun _ => True) reg_same
      (h_pp h) (h_prec h) ng_logev default_ng Hs Hs' Hprec (reg_law _ _ Hdel) (reg_tgt_perm _ _) (reg_scored _ _) d) with (t0 := t0); auto.
    exact (reg_setting_Pok _ _ _ _ H).
  - assert (Hb : dims_below (ts_dim d) t).
    { destruct (reg_fit_opt srt prior h d H) as (t1 & u & E1 & Ho & Et & _). rewrite E in E1. injection E1 as <-. subst t.
      apply (proj1 (opt_dims _ _ _ _ _ _ _ _)) in Ho. destruct (h_prune h); auto using dims_prune. }
    intros Xq m. eapply renumber_predict; eauto.
Qed.
