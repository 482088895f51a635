(** * FloatProofs: the midpoint of two floats, and when it separates them. *)
From Coq Require Import Reals Lra Permutation Sorted.
From Flocq Require Import Core BinarySingleNaN Plus_error Mult_error.
From Verif Require Import Prelude Lists Tree Perp Spec FitProofs OptProofs Api ApiSpec Routing FloatFeat.
Local Open Scope nat_scope.

Section Fmt.
Variables prec emax : Z.
Context (prec_gt_0_ : Prec_gt_0 prec) (prec_lt_emax_ : Prec_lt_emax prec emax).
Notation fl := (binary_float prec emax).
Notation fexp := (SpecFloat.fexp prec emax).
Notation fmt := (generic_format radix2 fexp).
Notation RN := (round radix2 fexp (round_mode mode_NE)).
Notation emin := (SpecFloat.emin prec emax).
Hypothesis Hemax : (2 < emax)%Z.
Local Open Scope R_scope.

Lemma fexp_FLT : fexp = FLT_exp emin prec.
Proof. reflexivity. Qed.

Instance valid_fexp : Valid_exp fexp.
Proof. rewrite fexp_FLT. typeclasses eauto. Qed.
Instance monotone_fexp : Monotone_exp fexp.
Proof. rewrite fexp_FLT. typeclasses eauto. Qed.

Lemma fmt_double x : fmt x -> fmt (2 * x).
Proof.
  intros H. destruct (Req_dec x 0) as [->|Hx]; [rewrite Rmult_0_r; apply generic_format_0|].
  replace (2 * x) with (x * bpow radix2 1) by (simpl; lra).
  rewrite fexp_FLT in *. unfold generic_format, scaled_mantissa, cexp in *.
  apply FLT_format_generic in H; auto. destruct H as [[m e] Hxe Hm He]. simpl in *.
  apply generic_format_FLT. exists (Float radix2 m (e + 1)); simpl; auto.
  - rewrite Hxe. unfold F2R. simpl. rewrite bpow_plus. simpl. lra.
  - lia.
Qed.

Lemma bpow_plus_1 e : bpow radix2 (e + 1) = 2 * bpow radix2 e.
Proof. rewrite bpow_plus. simpl. lra. Qed.

Lemma half_correct : B2R (half_f : fl) = / 2 /\ is_finite (half_f : fl) = true.
Proof.
  unfold half_f. generalize (Bldexp_correct prec emax _ _ mode_NE Bone (-1)). rewrite Bone_correct, Rmult_1_l.
  rewrite round_generic; [|apply valid_rnd_N|].
  - rewrite Rlt_bool_true.
    + intros (H1 & H2 & _). rewrite H1, H2. split; [simpl; lra|apply is_finite_Bone].
    + rewrite Rabs_pos_eq by apply bpow_ge_0. apply bpow_lt. pose proof prec_gt_0_ as P1. pose proof prec_lt_emax_ as P2. red in P1, P2. lia.
  - apply generic_format_bpow. rewrite fexp_FLT. unfold FLT_exp, SpecFloat.emin. pose proof prec_gt_0_ as P1. pose proof prec_lt_emax_ as P2. red in P1, P2. lia.
Qed.

Lemma RN_le x y : x <= y -> RN x <= RN y.
Proof. apply round_le; [apply valid_fexp|apply valid_rnd_N]. Qed.
Lemma RN_fmt x : fmt x -> RN x = x.
Proof. apply round_generic, valid_rnd_N. Qed.
Lemma RN_near x g : fmt g -> Rabs (RN x - x) <= Rabs (g - x).
Proof. intros H. apply (round_N_pt radix2 fexp _ x). auto. Qed.

(** The value of the midpoint when the sum does not overflow. *)
Lemma mid_correct (a b : fl) : is_finite a = true -> is_finite b = true -> is_finite (Bplus mode_NE a b) = true ->
  B2R a <= B2R b ->
  is_finite (mid_f a b) = true /\ B2R (mid_f a b) = RN (RN (B2R a + B2R b) / 2) /\ B2R a <= B2R (mid_f a b) <= B2R b.
Proof.
  intros Ha Hb Hs Hab.
  assert (Es : B2R (Bplus mode_NE a b) = RN (B2R a + B2R b)).
  { generalize (Bplus_correct prec emax _ _ mode_NE a b Ha Hb). destruct (Rlt_bool _ _).
    - intros (H & _). exact H.
    - intros (H & _). exfalso. destruct (Bplus mode_NE a b); simpl in *; try discriminate;
        destruct (Bsign a); discriminate. }
  set (s := RN (B2R a + B2R b)) in *.
  assert (Fa : fmt (B2R a)) by apply generic_format_B2R. assert (Fb : fmt (B2R b)) by apply generic_format_B2R.
  assert (Ls : 2 * B2R a <= s <= 2 * B2R b).
  { split; unfold s.
    - rewrite <- (RN_fmt (2 * B2R a)) by (apply fmt_double; auto). apply RN_le. lra.
    - rewrite <- (RN_fmt (2 * B2R b)) by (apply fmt_double; auto). apply RN_le. lra. }
  assert (Lm : B2R a <= RN (s / 2) <= B2R b).
  { split; [rewrite <- (RN_fmt _ Fa)|rewrite <- (RN_fmt _ Fb)]; apply RN_le; lra. }
  destruct half_correct as [Eh Fh].
  unfold mid_f. generalize (Bmult_correct prec emax _ _ mode_NE half_f (Bplus mode_NE a b)).
  rewrite Eh, Es. replace (/ 2 * s) with (s / 2) by lra.
  rewrite Rlt_bool_true.
  - intros (H1 & H2 & _). rewrite H1, H2, Fh, Hs. auto.
  - pose proof (abs_B2R_lt_emax _ _ a) as B1. pose proof (abs_B2R_lt_emax _ _ b) as B2.
    apply Rabs_def2 in B1, B2. apply Rabs_def1; lra.
Qed.

(** The midpoint lies strictly above the smaller value as soon as the format has a value in between. *)
Lemma mid_strict (a b c : fl) : is_finite a = true -> is_finite b = true -> is_finite (Bplus mode_NE a b) = true ->
  B2R a < B2R c < B2R b -> B2R a < B2R (mid_f a b).
Proof.
  intros Ha Hb Hs [Hac Hcb].
  destruct (mid_correct a b Ha Hb Hs) as (_ & Em & [Hl _]); [lra|].
  destruct (Rle_lt_or_eq_dec _ _ Hl) as [|Heq]; auto. exfalso.
  set (x := B2R a) in *. set (y := B2R b) in *. set (z := B2R c) in *.
  assert (Fa : fmt x) by apply generic_format_B2R. assert (Fb : fmt y) by apply generic_format_B2R.
  assert (Fc : fmt z) by apply generic_format_B2R.
  set (s := RN (x + y)) in *. rewrite Em in Heq.
  assert (Hcase : (s = x + y \/ fmt (s / 2))).
  { destruct (Rle_or_lt (Rabs (x + y)) (bpow radix2 (prec + emin))) as [Hsm|Hbig].
    - left. apply RN_fmt. rewrite fexp_FLT. apply FLT_format_plus_small; auto.
    - right. replace (s / 2) with (s * bpow radix2 (-1)) by (simpl; lra).
      rewrite fexp_FLT. apply mult_bpow_exact_FLT.
      + rewrite <- fexp_FLT. apply generic_format_round; [apply valid_fexp|apply valid_rnd_N].
      + assert (Hsb : bpow radix2 (prec + emin) <= Rabs s).
        { unfold s. apply abs_round_ge_generic; [apply valid_fexp|apply valid_rnd_N| |lra].
          apply generic_format_bpow. rewrite fexp_FLT. unfold FLT_exp. pose proof prec_gt_0_ as P1. red in P1. lia. }
        apply mag_ge_bpow with (e := (prec + emin + 1)%Z) in Hsb || (assert (prec + emin + 1 <= mag radix2 s)%Z by
          (apply mag_ge_bpow; replace (prec + emin + 1 - 1)%Z with (prec + emin)%Z by lia; auto)).
        lia. }
  destruct Hcase as [Es|Fs].
  - (* exact sum *)
    rewrite Es in Heq.
    pose proof (RN_near ((x + y) / 2) z Fc) as Hn. rewrite <- Heq in Hn.
    destruct (Rle_or_lt z ((x + y) / 2)) as [Hz|Hz].
    + apply RN_le in Hz. rewrite (RN_fmt z Fc) in Hz. lra.
    + rewrite Rabs_left1 in Hn by lra. rewrite Rabs_pos_eq in Hn by lra. lra.
  - (* exact halving *)
    rewrite (RN_fmt _ Fs) in Heq.
    pose proof (RN_near (x + y) (2 * z) (fmt_double _ Fc)) as Hn. fold s in Hn.
    destruct (Rle_or_lt (2 * z) (x + y)) as [Hz|Hz].
    + apply RN_le in Hz. rewrite (RN_fmt _ (fmt_double _ Fc)) in Hz. fold s in Hz. lra.
    + replace s with (2 * x) in Hn by lra. rewrite Rabs_left1 in Hn by lra. rewrite Rabs_pos_eq in Hn by lra. lra.
Qed.

(** ** Comparisons *)
Lemma fleb_refl (a : fl) : fleb a a = true.
Proof.
  unfold fleb. destruct (is_nan a) eqn:E; [apply orb_true_r|].
  destruct (is_finite a) eqn:F.
  - rewrite Bleb_correct, Rle_bool_true; auto. lra.
  - destruct a as [s|s| |s m e H]; try discriminate. destruct s; reflexivity.
Qed.
Lemma fleb_finite (a b : fl) : is_finite a = true -> is_finite b = true -> (fleb a b = true <-> B2R a <= B2R b).
Proof.
  intros Ha Hb. unfold fleb. rewrite Bleb_correct by auto.
  assert (is_nan b = false) as -> by (destruct b; auto; discriminate). rewrite orb_false_r.
  split; [intros H; apply Rle_bool_true in H || (destruct (Rle_bool_spec (B2R a) (B2R b)); auto; discriminate)|apply Rle_bool_true].
Qed.
Lemma Bltb_finite (a b : fl) : is_finite a = true -> is_finite b = true -> (Bltb a b = true <-> B2R a < B2R b).
Proof.
  intros Ha Hb. rewrite Bltb_correct by auto.
  split; [intros H; destruct (Rlt_bool_spec (B2R a) (B2R b)); auto; discriminate|apply Rlt_bool_true].
Qed.
Lemma between_finite (a b c : fl) : is_finite a = true -> is_finite b = true ->
  Bltb a c = true -> Bltb c b = true -> is_finite c = true.
Proof.
  intros Ha Hb H1 H2. destruct c as [s|s| |s m e H]; auto.
  - destruct s; [destruct a as [[]|[]| |[] ? ? ?]|destruct b as [[]|[]| |[] ? ? ?]]; discriminate.
Qed.

(** Equal values are never separated by a non-negative split precision. *)
Lemma gap_neq (p a b : fl) : is_finite a = true -> is_finite b = true -> Bltb p (B754_zero false) = false ->
  gap_f p a b = true -> B2R a <> B2R b.
Proof.
  intros Ha Hb Hp Hg E. unfold gap_f in Hg.
  generalize (Bminus_correct prec emax _ _ mode_NE b a Hb Ha). rewrite E, Rminus_diag_eq by auto.
  rewrite round_0 by apply valid_rnd_N. rewrite Rabs_R0, Rlt_bool_true by apply bpow_gt_0.
  intros (H1 & H2 & _).
  destruct (Bminus mode_NE b a) as [s|s| |s m e H]; try discriminate.
  - simpl in Hg. congruence.
  - exfalso. simpl in H1. apply eq_0_F2R in H1. simpl in H1. destruct s; discriminate.
Qed.

(** All entries finite. *)
Definition finite_entries (X : nat -> nat -> fl) (n n_dim : nat) : Prop :=
  forall i d, (i < n)%nat -> (d < n_dim)%nat -> is_finite (X i d) = true.
(** Any two values of a column that the fit may separate have a sum that does not overflow and are not
    neighbours in the floating-point format. *)
Definition separable (p : fl) (X : nat -> nat -> fl) (n n_dim : nat) : Prop :=
  forall i j d, (i < n)%nat -> (j < n)%nat -> (d < n_dim)%nat ->
    Bltb (X i d) (X j d) = true -> gap_f p (X i d) (X j d) = true ->
    is_finite (Bplus mode_NE (X i d) (X j d)) = true /\
    exists c : fl, Bltb (X i d) c = true /\ Bltb c (X j d) = true.

Lemma float_threshold p srt X n n_dim : Bltb p (B754_zero false) = false -> finite_entries X n n_dim ->
  separable p X n n_dim -> threshold_ok (feat_f p srt) fleb X n n_dim.
Proof.
  intros Hp Hfin Hsep d i j r Hd Hi Hj Hr Hle Hg. simpl in *.
  pose proof (Hfin i d Hi Hd) as Fa. pose proof (Hfin j d Hj Hd) as Fb. pose proof (Hfin r d Hr Hd) as Fr.
  apply fleb_finite in Hle; auto. pose proof (gap_neq p _ _ Fa Fb Hp Hg) as Hne.
  assert (Hlt : B2R (X i d) < B2R (X j d)) by lra.
  destruct (Hsep i j d Hi Hj Hd) as (Hs & c & Hc1 & Hc2); auto; [apply Bltb_finite; auto|].
  pose proof (between_finite _ _ c Fa Fb Hc1 Hc2) as Fc. apply Bltb_finite in Hc1, Hc2; auto.
  destruct (mid_correct (X i d) (X j d) Fa Fb Hs Hle) as (Fm & _ & Hm).
  pose proof (mid_strict (X i d) (X j d) c Fa Fb Hs (conj Hc1 Hc2)) as Hm'.
  rewrite !fleb_finite, Bltb_correct, Bleb_correct by auto.
  split; intros H; split.
  - apply Rlt_bool_true. lra.
  - apply Rle_bool_false. lra.
  - apply Rlt_bool_false. lra.
  - apply Rle_bool_true. lra.
Qed.

(** ** A split precision that rules out neighbouring values *)
Lemma ulp_bound x k : (emin + prec <= k)%Z -> Rabs x < bpow radix2 k -> ulp radix2 fexp x <= bpow radix2 (k - prec).
Proof.
  intros Hk Hx. destruct (Req_dec x 0) as [->|Hne].
  - rewrite fexp_FLT, ulp_FLT_small.
    + apply bpow_le. lia.
    + auto.
    + rewrite Rabs_R0. apply bpow_gt_0.
  - rewrite ulp_neq_0 by auto. apply bpow_le. unfold cexp. rewrite fexp_FLT. unfold FLT_exp.
    apply mag_le_bpow in Hx; auto. lia.
Qed.

Lemma precision_separable p k X n n_dim : finite_entries X n n_dim ->
  (emin + prec <= k)%Z -> (k + 1 < emax)%Z -> is_finite p = true -> bpow radix2 (k - prec) <= B2R p ->
  (forall i d, (i < n)%nat -> (d < n_dim)%nat -> Rabs (B2R (X i d)) < bpow radix2 k) ->
  separable p X n n_dim.
Proof.
  intros Hfin Hk Hke Fp Hp HX i j d Hi Hj Hd Hlt Hg.
  pose proof (Hfin i d Hi Hd) as Fa. pose proof (Hfin j d Hj Hd) as Fb.
  pose proof (HX i d Hi Hd) as Ba. pose proof (HX j d Hj Hd) as Bb.
  apply Bltb_finite in Hlt; auto.
  set (a := X i d) in *. set (b := X j d) in *.
  assert (Fk : fmt (bpow radix2 (k + 1))).
  { apply generic_format_bpow. rewrite fexp_FLT. unfold FLT_exp. pose proof prec_gt_0_ as P1. red in P1. lia. }
  assert (Hkk : bpow radix2 (k + 1) < bpow radix2 emax) by (apply bpow_lt; lia).
  pose proof (bpow_plus_1 k) as Hk1.
  apply Rabs_def2 in Ba, Bb.
  split.
  - generalize (Bplus_correct prec emax _ _ mode_NE a b Fa Fb). rewrite Rlt_bool_true.
    + intros (_ & H & _). exact H.
    + apply Rle_lt_trans with (bpow radix2 (k + 1)); auto.
      apply abs_round_le_generic; [apply valid_fexp|apply valid_rnd_N|auto|]. apply Rabs_le. lra.
  - (* the difference exceeds the spacing *)
    assert (Hd' : bpow radix2 (k - prec) < B2R b - B2R a).
    { unfold gap_f in Hg.
      generalize (Bminus_correct prec emax _ _ mode_NE b a Fb Fa). rewrite Rlt_bool_true.
      + intros (E & F & _). apply Bltb_finite in Hg; [|auto|rewrite is_finite_Babs; auto].
        rewrite B2R_Babs, E in Hg. destruct (Rle_or_lt (B2R b - B2R a) (bpow radix2 (k - prec))) as [H|]; auto. exfalso.
        assert (Hr : Rabs (RN (B2R b - B2R a)) <= bpow radix2 (k - prec)).
        { apply abs_round_le_generic; [apply valid_fexp|apply valid_rnd_N| |].
          - apply generic_format_bpow. rewrite fexp_FLT. unfold FLT_exp. pose proof prec_gt_0_ as P1. red in P1. lia.
          - apply Rabs_le. lra. }
        lra.
      + apply Rle_lt_trans with (bpow radix2 (k + 1)); auto.
        apply abs_round_le_generic; [apply valid_fexp|apply valid_rnd_N|auto|]. apply Rabs_le. lra. }
    assert (Hu : succ radix2 fexp (B2R a) <= B2R a + bpow radix2 (k - prec)).
    { eapply Rle_trans; [apply succ_le_plus_ulp; apply monotone_fexp|]. apply Rplus_le_compat_l.
      apply ulp_bound; auto. apply Rabs_def1; lra. }
    assert (Hgt : B2R a < succ radix2 fexp (B2R a)).
    { destruct (Req_dec (B2R a) 0) as [E|E]; [|apply succ_gt_id; auto].
      rewrite E, succ_0. rewrite fexp_FLT, ulp_FLT_small; auto; [apply bpow_gt_0|].
      rewrite Rabs_R0. apply bpow_gt_0. }
    pose proof (abs_B2R_lt_emax _ _ b) as Be. apply Rabs_def2 in Be.
    exists (Bsucc a). generalize (Bsucc_correct prec emax _ _ a Fa). rewrite Rlt_bool_true by lra.
    intros (E & F & _). rewrite !Bltb_finite, E by auto. lra.
Qed.
End Fmt.
