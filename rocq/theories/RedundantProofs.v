(** * RedundantProofs: constant and repeated columns only remove splits. *)
From Coq Require Import Reals Lra Permutation.
From Verif Require Import Prelude Lists Tree Perp RealOps Clf Reg Api Spec PredictProofs PruneProofs OptSpec OptProofs OptFit ClfSpec ClfProofs
  RegSpec RegProofs ApiSpec ApiProofs Coarse CoarseSpec RedundantSpec.
Local Open Scope nat_scope.

Section Padded.
Context {P : Type}.
Variable T : tgt R P R.
Variable prec u : R.
Variables d d' : tset R R.
Hypothesis Hpad : padded d d'.
Hypothesis Hu : (u <= 0)%R.
Hypothesis Hgt : t_gt T = Rgt.
Hypothesis Hpr : forall p n, t_prior T (Some p) n (ts_dim d') = t_prior T (Some p) n (ts_dim d).
Hypothesis Hcu : forall lvl p m l r, m <> 0 -> t_cut T lvl p (ts_dim d') m l r = (t_cut T lvl p (ts_dim d) m l r + u)%R.
Notation cand_ e := (cand Rleb (gap_R prec) T (ts_X e) (ts_y e) (ts_dim e)).
Notation opt_ e := (opt Rleb (gap_R prec) mid_R T (ts_X e) (ts_y e) (ts_names e) (ts_dim e)).
Notation optc_ e := (opt_child Rleb (gap_R prec) mid_R T (ts_X e) (ts_y e) (ts_names e) (ts_dim e)).
Notation bounded rows := (forall i, In i rows -> i < ts_n d).

Lemma pad_y rows : bounded rows -> map (ts_y d') rows = map (ts_y d) rows.
Proof. intros Hb. apply map_ext_in. intros i Hi. apply Hpad. auto. Qed.
(** Columns with the same entries have the same cuts and parts. *)
Section Same.
Variables (X X' : nat -> nat -> R) (f f' : nat) (rows : list nat).
Hypothesis E : forall i, In i rows -> X' i f' = X i f.
Lemma same_cut a b : is_cut Rleb (gap_R prec) X' f' rows a b <-> is_cut Rleb (gap_R prec) X f rows a b.
Proof.
  unfold is_cut, value_of. split; intros ((i & Hi & Ei) & (j & Hj & Ej) & A & B & H); repeat split; auto.
  1, 4: exists i; split; auto; rewrite <- Ei; auto; symmetry; auto.
  1, 3: exists j; split; auto; rewrite <- Ej; auto; symmetry; auto.
  all: intros k Hk; specialize (H k Hk); rewrite E in *; auto.
Qed.
Lemma same_n_cuts m : n_cuts Rleb (gap_R prec) X' f' rows m <-> n_cuts Rleb (gap_R prec) X f rows m.
Proof. unfold n_cuts. split; intros (cs & A & B & C); exists cs; split; auto; split; auto; intros a b; rewrite C; [|symmetry]; apply same_cut. Qed.
Lemma same_left a : left_rows Rleb X' f' a rows = left_rows Rleb X f a rows.
Proof. apply filter_ext_in. intros i Hi. now rewrite E. Qed.
Lemma same_right a : right_rows Rleb X' f' a rows = right_rows Rleb X f a rows.
Proof. apply filter_ext_in. intros i Hi. now rewrite E. Qed.
End Same.

Lemma same_cand rows f f' lvl p a b s : bounded rows -> f < ts_dim d -> f' < ts_dim d' -> (forall i, In i rows -> ts_X d' i f' = ts_X d i f) ->
  (cand_ d' lvl p rows f' a b (s + u)%R <-> cand_ d lvl p rows f a b s).
Proof.
  intros Hb Hf Hf' E. unfold cand. rewrite (same_cut _ _ _ _ _ E). rewrite (same_left _ _ _ _ _ E), (same_right _ _ _ _ _ E).
  rewrite !pad_y by (intros i Hi; apply filter_In in Hi as [Hi _]; auto).
  split; intros (_ & Hc & m & Hm & Es); (split; [assumption|]); (split; [exact Hc|]); exists m.
  - split; [now apply (same_n_cuts _ _ _ _ _ E)|]. rewrite Hcu in Es; [lra|]. intros ->.
    destruct Hm as (cs & _ & L & H). apply (same_cut _ _ _ _ _ E), H in Hc. destruct cs; [destruct Hc|discriminate].
  - split; [now apply (same_n_cuts _ _ _ _ _ E)|]. rewrite Hcu; [lra|]. intros ->.
    destruct Hm as (cs & _ & L & H). apply H in Hc. destruct cs; [destruct Hc|discriminate].
Qed.
Lemma old_cand rows f lvl p a b s : bounded rows -> cand_ d lvl p rows f a b s -> cand_ d' lvl p rows f a b (s + u)%R.
Proof.
  intros Hb Hc. pose proof Hc as (Hf & _). destruct Hpad as (_ & Hle & Hs & _). eapply same_cand; eauto; [lia|].
  intros i Hi. destruct (Hs i (Hb i Hi)) as [_ H]. auto.
Qed.
(** A candidate of the padded data is one of the old data, with an earlier or the same column. *)
Lemma new_cand rows f lvl p a b s' : bounded rows -> cand_ d' lvl p rows f a b s' ->
  exists g, g <= f /\ (g = f \/ ts_dim d <= f) /\ cand_ d lvl p rows g a b (s' - u)%R.
Proof.
  intros Hb Hc. pose proof Hc as (Hf & Hcut & _). destruct Hpad as (_ & Hle & Hs & _ & Hred).
  assert (Ec : cand_ d' lvl p rows f a b (s' - u + u)%R) by (replace (s' - u + u)%R with s' by ring; exact Hc).
  destruct (le_lt_dec (ts_dim d) f) as [H|H].
  - destruct (Hred f ltac:(lia)) as [Hk|(g & Hg & Hk)].
    + exfalso. destruct Hcut as ((i & Hi & Ei) & (j & Hj & Ej) & A & _). rewrite (Hk i j), Ej in Ei by auto. apply Rleb_false in A. lra.
    + exists g. split; [lia|]. split; [auto|]. eapply same_cand; [auto|auto|exact Hf| |exact Ec]. auto.
  - exists f. split; [auto|]. split; [auto|]. eapply same_cand; [auto|auto|exact Hf| |exact Ec]. intros i Hi. destruct (Hs i (Hb i Hi)) as [_ X]. auto.
Qed.
Lemma pad_info lvl pa p rows : bounded rows -> with_dim (ts_dim d') (node_info T (ts_y d) (ts_dim d) lvl pa p rows) = node_info T (ts_y d') (ts_dim d') lvl pa p rows.
Proof. intros Hb. unfold with_dim, node_info. cbn. now rewrite pad_y. Qed.
Lemma bounded_filter (h : nat -> bool) rows : bounded rows -> bounded (filter h rows).
Proof. intros Hb i Hi. apply filter_In in Hi as [Hi _]. auto. Qed.

Lemma opt_padded :
  (forall lvl pa rows t, opt_ d lvl pa rows t -> bounded rows -> t_prior T pa (length rows) (ts_dim d') = t_prior T pa (length rows) (ts_dim d) ->
     exists t', opt_ d' lvl pa rows t' /\ coarser t' (tree_with_dim (ts_dim d') t)) /\
  (forall lvl p rows t, optc_ d lvl p rows t -> bounded rows ->
     exists t', optc_ d' lvl p rows t' /\ coarser t' (tree_with_dim (ts_dim d') t)).
Proof.
  apply opt_mutind.
  - intros lvl pa rows p Hp Hno Hb Hpe. eexists. split; [|cbn [tree_with_dim]; rewrite pad_info by auto; apply coarser_leaf].
    apply opt_leaf; [congruence|]. intros f a b s' Hc. apply new_cand in Hc as (g & _ & _ & Hc); auto. apply Hno in Hc.
    rewrite Hgt in *. rewrite pad_y by auto. lra.
  - intros lvl pa rows p f a b s nm c1 c2 Hp Hc Hg Hmax Hnm H1 IH1 H2 IH2 Hb Hpe.
    pose proof Hc as (Hf & _). pose proof Hpad as (_ & Hle & Hs & Hn & _).
    assert (Ef : forall i, In i rows -> ts_X d' i f = ts_X d i f) by (intros i Hi; apply Hs; auto).
    destruct (IH1 (bounded_filter _ _ Hb)) as (c1' & O1 & R1). destruct (IH2 (bounded_filter _ _ Hb)) as (c2' & O2 & R2).
    assert (Hmax' : forall f' a' b' s', cand_ d' lvl p rows f' a' b' s' ->
              ~ t_gt T s' (s + u)%R /\ (~ t_gt T (s + u)%R s' -> f < f' \/ f = f' /\ Rleb a a' = true)).
    { intros f' a' b' s' Hc'. apply new_cand in Hc' as (g & Hg1 & Hg2 & Hc'); auto. destruct (Hmax _ _ _ _ Hc') as [M1 M2]. rewrite Hgt in *.
      split; [lra|]. intros Hng. destruct (M2 ltac:(lra)) as [M|[M N]]; [left; lia|]. destruct Hg2 as [Hg2|Hg2]; [subst; auto|left; lia]. }
    cbn [tree_with_dim]. rewrite pad_info by auto. destruct (Rgt_dec (s + u) (t_stop T lvl p (map (ts_y d') rows))) as [Hy|Hny].
    + eexists. split; [|apply coarser_split; eassumption].
      eapply (opt_split _ _ _ T (ts_X d') (ts_y d') (ts_names d') (ts_dim d') lvl pa rows p f a b (s + u)%R nm c1' c2'); auto.
      * congruence.
      * now apply old_cand.
      * rewrite Hgt. exact Hy.
      * rewrite Hn by auto. exact Hnm.
      * rewrite (same_left _ _ _ _ _ Ef). exact O1.
      * rewrite (same_right _ _ _ _ _ Ef). exact O2.
    + eexists. split; [|apply coarser_cut]. apply opt_leaf; [congruence|]. intros f' a' b' s' Hc'. destruct (Hmax' _ _ _ _ Hc') as [M _]. rewrite Hgt in *. lra.
  - intros lvl p rows t Hl Hm Ho IH Hb. destruct (IH Hb (Hpr _ _)) as (t' & O & Rr). exists t'. split; [|exact Rr].
    apply opt_child_fit; rewrite ?pad_y by auto; auto.
  - intros lvl p rows Hor Hb. eexists. split; [|apply coarser_leaf]. cbn [with_dim i_prior i_level i_n_data i_n_dim i_post].
    unfold with_dim. cbn [i_prior i_level i_n_data i_n_dim i_post]. rewrite <- (pad_y rows Hb) in *.
    apply (opt_child_leaf _ _ _ T (ts_X d') (ts_y d') (ts_names d') (ts_dim d')). exact Hor.
Qed.
End Padded.

Lemma prune_with_dim {D S P} (same : ninfo P -> ninfo P -> bool) n (t : tree D S P) : (forall i j, same (with_dim n i) (with_dim n j) = same i j) ->
  prune_bu same (tree_with_dim n t) = tree_with_dim n (prune_bu same t).
Proof.
  intros Hs. induction t as [i|i s a b c1 IH1 c2 IH2]; [reflexivity|]. cbn [tree_with_dim prune_bu]. rewrite IH1, IH2.
  destruct (prune_bu same c1) as [i1|], (prune_bu same c2) as [i2|]; try reflexivity. cbn [tree_with_dim]. rewrite Hs. destruct (same i1 i2); reflexivity.
Qed.

Lemma dim_shift pp lvl m n n' : (0 < pp < 1)%R -> m <> 0 -> 0 < n <= n' ->
  (ln (pp ^ (1 + lvl) / (INR m * INR n')) = ln (pp ^ (1 + lvl) / (INR m * INR n)) + (ln (INR n) - ln (INR n')))%R.
Proof.
  intros Hpp Hm Hn. pose proof (pow_lt pp (1 + lvl) ltac:(lra)) as A. pose proof (lt_0_INR m ltac:(lia)) as B.
  pose proof (lt_0_INR n ltac:(lia)) as D. pose proof (lt_0_INR n' ltac:(lia)) as D'.
  unfold Rdiv. rewrite !ln_mult, !ln_Rinv, !ln_mult; try lra; try apply Rmult_lt_0_compat; auto; apply Rinv_0_lt_compat; apply Rmult_lt_0_compat; auto.
Qed.
Lemma dim_le n n' : 0 < n <= n' -> (ln (INR n) - ln (INR n') <= 0)%R.
Proof.
  intros H. pose proof (lt_0_INR n ltac:(lia)) as A. pose proof (le_INR n n' ltac:(lia)) as B. pose proof (ln_le_mono _ _ A B). lra.
Qed.
Lemma bounded_rows d : forall i, In i (all_rows d) -> i < @ts_n R R d.
Proof. intros i Hi. apply in_seq in Hi. lia. Qed.
Lemma padded_rows d d' : padded d d' -> all_rows d' = all_rows d.
Proof. intros (E & _). unfold all_rows. now rewrite E. Qed.
Lemma padded_ok d d' : padded d d' -> tset_ok d -> ts_dim d' <= length (ts_names d') -> tset_ok d'.
Proof.
  intros (E & Hle & _) (A & B & C & D) L. unfold tset_ok. rewrite E. repeat split; auto. lia.
Qed.

Lemma clf_padded srt k prior h d d' t t' : clf_setting srt k prior h d -> padded d d' -> ts_dim d' <= length (ts_names d') ->
  clf_fit srt h d = Ok t -> clf_fit srt h d' = Ok t' -> coarser t' (tree_with_dim (ts_dim d') t).
Proof.
  intros Hs Hpad Hnames Et Et'. pose proof Hs as (A1 & (A2 & A3 & A4) & A5 & A6 & A7 & A8 & A9). pose proof Hpad as (En & Hle & Hpx & _).
  assert (Hdim : 0 < ts_dim d) by (destruct A5 as (_ & _ & H & _); exact H).
  assert (Hs' : clf_setting srt k prior h d').
  { split; [exact A1|]. split; [exact (conj A2 (conj A3 A4))|]. split; [eapply padded_ok; eauto|]. do 3 (split; [assumption|]).
    intros i Hi. rewrite En in Hi. destruct (Hpx i Hi) as [-> _]. auto. }
  destruct (clf_fit_opt _ _ _ _ _ Hs) as (x & x0 & Ex & Ox & Ux & _). rewrite Et in Ex. injection Ex as <-.
  destruct (clf_fit_opt _ _ _ _ _ Hs') as (z & z0 & Ez & Oz & Uz & _). rewrite Et' in Ez. injection Ez as <-.
  destruct (proj1 (opt_padded (clf_tgt (h_pp h) (h_delta h)) (h_prec h) (ln (INR (ts_dim d)) - ln (INR (ts_dim d')))%R d d' Hpad
      (dim_le _ _ (conj Hdim Hle)) eq_refl (fun _ _ => eq_refl)
      ltac:(intros lvl p m l r Hm; cbn [t_cut clf_tgt]; rewrite (dim_shift _ _ _ _ _ A2 Hm (conj Hdim Hle)); lra)) _ _ _ _ Ox (bounded_rows d)
      ltac:(rewrite A6; reflexivity)) as (t2 & O2 & C2).
  rewrite (padded_rows _ _ Hpad) in Oz.
  assert (z0 = t2) as ->.
  { eapply (proj1 (opt_functional Rleb (gap_R (h_prec h)) mid_R (feat_R (h_prec h) srt) (clf_tgt (h_pp h) (h_delta h)) (ts_X d') (ts_y d') (ts_names d')
            (feat_R_law _ _ A4 A1) (ts_dim d'))); eassumption. }
  rewrite Ux, Uz. destruct (h_prune h); [|exact C2]. rewrite <- prune_with_dim by reflexivity. now apply prune_coarser.
Qed.
Lemma reg_padded srt prior h d d' t t' : reg_setting srt prior h d -> padded d d' -> ts_dim d' <= length (ts_names d') ->
  reg_fit srt h d = Ok t -> reg_fit srt h d' = Ok t' -> coarser t' (tree_with_dim (ts_dim d') t).
Proof.
  intros Hs Hpad Hnames Et Et'. pose proof Hs as (A1 & (A2 & A3 & A4) & A5 & A6 & A7). pose proof Hpad as (En & Hle & Hpx & _).
  assert (Hdim : 0 < ts_dim d) by (destruct A5 as (_ & _ & H & _); exact H).
  assert (Hs' : reg_setting srt prior h d').
  { split; [exact A1|]. split; [exact (conj A2 (conj A3 A4))|]. split; [eapply padded_ok; eauto|]. split; [rewrite En; exact A6|exact A7]. }
  destruct (reg_fit_opt _ _ _ _ Hs) as (x & x0 & Ex & Ox & Ux & _). rewrite Et in Ex. injection Ex as <-.
  destruct (reg_fit_opt _ _ _ _ Hs') as (z & z0 & Ez & Oz & Uz & _). rewrite Et' in Ez. injection Ez as <-.
  destruct (proj1 (opt_padded (reg_tgt (h_pp h) (h_delta h)) (h_prec h) (ln (INR (ts_dim d)) - ln (INR (ts_dim d')))%R d d' Hpad
      (dim_le _ _ (conj Hdim Hle)) eq_refl (fun _ _ => eq_refl)
      ltac:(intros lvl p m l r Hm; cbn [t_cut reg_tgt]; rewrite (dim_shift _ _ _ _ _ A2 Hm (conj Hdim Hle)); lra)) _ _ _ _ Ox (bounded_rows d)
      eq_refl) as (t2 & O2 & C2).
  rewrite (padded_rows _ _ Hpad) in Oz.
  assert (z0 = t2) as ->.
  { eapply (proj1 (opt_functional Rleb (gap_R (h_prec h)) mid_R (feat_R (h_prec h) srt) (reg_tgt (h_pp h) (h_delta h)) (ts_X d') (ts_y d') (ts_names d')
            (feat_R_law _ _ A4 A1) (ts_dim d'))); eassumption. }
  rewrite Ux, Uz. destruct (h_prune h); [|exact C2]. rewrite <- prune_with_dim by reflexivity. now apply prune_coarser.
Qed.
