(** * FloatOracle: accurate library functions give accurate logarithms and beta functions. *)
From Coq Require Import Reals Lra Permutation Psatz.
From Flocq Require Import Core BinarySingleNaN.
From Verif Require Import Prelude RealOps Gamma Clf ClfSpec ClfProofs FloatFeat FloatReg FloatClf FloatSum FloatNG FloatClfSum FloatClfProofs Stable FloatClfErr.
Local Open Scope R_scope.

(** ** Accuracy of [np.log], [**], [gammaln] and [betaln] *)
Definition log_accurate (flog : float64 -> float64) (eps : R) : Prop :=
  forall x, is_finite x = true -> 0 < B2R x -> is_finite (flog x) = true /\ Rabs (B2R (flog x) - ln (B2R x)) <= eps.
Definition pow_accurate (fpow : float64 -> nat -> float64) (pp : float64) (depth : nat) (rho : R) : Prop :=
  forall j, (1 <= j <= 1 + depth)%nat -> is_finite (fpow pp j) = true /\ Rabs (B2R (fpow pp j) - B2R pp ^ j) <= rho * B2R pp ^ j.
Definition betaln_accurate (fbetaln : float64 -> float64 -> float64) (m : nat) (eb B : R) : Prop :=
  forall i j, (1 <= i)%nat -> (1 <= j)%nat -> (i + j <= m)%nat -> within eb B (fbetaln (f_nat i) (f_nat j)) (betaln (INR i) (INR j)).
Definition gammaln_accurate (fgammaln : float64 -> float64) (m : nat) (eg G : R) : Prop :=
  forall i, (1 <= i <= m)%nat -> within eg G (fgammaln (f_nat i)) (gammaln (INR i)).

(** ** Logarithms *)
Lemma ln_le_1 x : 0 < x -> ln x <= x - 1.
Proof.
  intros H. destruct (Req_dec x 1) as [->|Hne]; [rewrite ln_1; lra|].
  left. pose proof (exp_ineq1 (ln x)) as E. assert (ln x <> 0) by (intros E0; apply Hne; rewrite <- (exp_ln x H), E0, exp_0; reflexivity).
  specialize (E H0). rewrite exp_ln in E by exact H. lra.
Qed.
Lemma ln_near x x' d : 0 < x -> Rabs (x' - x) <= d * x -> d <= / 2 -> 0 < x' /\ Rabs (ln x' - ln x) <= 2 * d.
Proof.
  intros Hx H Hd. assert (Hd0 : 0 <= d) by (pose proof (Rabs_pos (x' - x)); nra). apply abs_bnd in H.
  assert (Hx' : / 2 * x <= x') by nra. assert (0 < x') by lra. split; [lra|].
  assert (E1 : ln x' - ln x <= d).
  { rewrite <- ln_div by lra. eapply Rle_trans; [apply ln_le_1; apply Rdiv_lt_0_compat; lra|].
    apply Rmult_le_reg_r with x; [lra|]. unfold Rdiv. rewrite Rmult_minus_distr_r, Rmult_assoc, Rinv_l by lra. lra. }
  assert (E2 : ln x - ln x' <= 2 * d).
  { rewrite <- ln_div by lra. eapply Rle_trans; [apply ln_le_1; apply Rdiv_lt_0_compat; lra|].
    apply Rmult_le_reg_r with x'; [lra|]. unfold Rdiv. rewrite Rmult_minus_distr_r, Rmult_assoc, Rinv_l by lra. nra. }
  apply Rabs_le. lra.
Qed.
Lemma ln_b2 z : Rabs (ln (b2 z)) <= IZR (Z.abs z).
Proof.
  rewrite bpow_exp, ln_exp, Rabs_mult, <- abs_IZR. rewrite <- (Rmult_1_r (IZR (Z.abs z))) at 2.
  apply Rmult_le_compat_l; [apply IZR_le; lia|]. pose proof (ln_le_1 2 ltac:(lra)). pose proof ln_lt_2.
  change (IZR radix2) with 2. apply Rabs_le. lra.
Qed.
Lemma ln_bound x z : (0 <= z)%Z -> b2 (- z) <= x <= 1 -> Rabs (ln x) <= IZR z.
Proof.
  intros Hz [H1 H2]. pose proof (b2_pos (- z)). pose proof (ln_b2 (- z)) as H3. rewrite Z.abs_opp, Z.abs_eq in H3 by exact Hz. apply abs_bnd in H3.
  assert (ln (b2 (- z)) <= ln x) by (destruct H1 as [H1| ->]; [left; apply ln_increasing; lra|lra]).
  assert (ln x <= ln 1) by (destruct H2 as [H2| ->]; [left; apply ln_increasing; lra|lra]). rewrite ln_1 in *. apply Rabs_le. lra.
Qed.
Lemma pow_le_base x j : 0 <= x <= 1 -> (1 <= j)%nat -> x ^ j <= x.
Proof.
  intros Hx Hj. destruct j as [|j]; [lia|]. simpl. assert (x ^ j <= 1). { rewrite <- (pow1 j). apply pow_incr. lra. }
  pose proof (pow_le x j ltac:(lra)). nra.
Qed.
Lemma pow_le_exp x j m : 0 <= x <= 1 -> (j <= m)%nat -> x ^ m <= x ^ j.
Proof.
  intros Hx Hj. replace m with (j + (m - j))%nat by lia. rewrite pow_add.
  assert (x ^ (m - j) <= 1). { rewrite <- (pow1 (m - j)). apply pow_incr. lra. }
  pose proof (pow_le x j ltac:(lra)). pose proof (pow_le x (m - j) ltac:(lra)). nra.
Qed.
Lemma nat_float i : (Z.of_nat i < 2 ^ 53)%Z -> is_finite (f_nat i) = true /\ B2R (f_nat i) = INR i.
Proof. intros H. destruct (int_nat i H) as [H1 H2]. rewrite H2, <- INR_IZR_INZ. auto. Qed.

(** The logarithms of the partition prior. *)
Theorem logs_accurate flog fpow pp n n_dim depth eps rho delta :
  0 < B2R pp < 1 -> b2 (-900) <= B2R pp ^ (1 + depth) -> b2 (-900) <= 1 - B2R pp ->
  (0 < n_dim)%nat -> (Z.of_nat (n * n_dim) < 2 ^ 53)%Z ->
  log_accurate flog eps -> eps <= 1 -> pow_accurate fpow pp depth rho -> 0 <= rho <= delta * (1 - B2R pp) -> delta <= / 8 ->
  logs_within flog fpow pp n n_dim depth (eps + 2 * delta + 4 * u53) 1000.
Proof.
  intros Hpp Hdeep Hone Hdim Hnd Hlog He Hpow Hrho Hdelta lvl Hlvl.
  assert (Hu : 0 < u53 <= / 9007199254740992) by (rewrite u53_val; lra).
  destruct (Hpow (1 + lvl)%nat ltac:(lia)) as [Fp Ep].
  pose proof (pow_le_base (B2R pp) (1 + lvl) ltac:(lra) ltac:(lia)) as P1.
  pose proof (pow_le_exp (B2R pp) (1 + lvl) (1 + depth) ltac:(lra) ltac:(lia)) as P2.
  set (q := B2R pp ^ (1 + lvl)) in *. set (q' := fpow pp (1 + lvl)%nat) in *.
  pose proof (b2_pos (-900)) as Hb.
  assert (Hd0 : 0 <= delta) by nra. assert (Hrd : rho <= delta) by nra.
  assert (Hrq : rho * q <= delta * (1 - q)) by (assert (rho * q <= rho) by nra; nra).
  apply abs_bnd in Ep.
  assert (fin : forall x x' d, is_finite x' = true -> b2 (-960) <= x <= 1 -> Rabs (B2R x' - x) <= d * x -> d <= delta + 2 * u53 ->
     within (eps + 2 * delta + 4 * u53) 1000 (flog x') (ln x)).
  { intros x x' d Fx Hx Hxx Hd. pose proof (b2_pos (-960)). destruct (ln_near x (B2R x') d ltac:(lra) Hxx ltac:(lra)) as [X1 X2].
    destruct (Hlog x' Fx X1) as [L1 L2]. pose proof (ln_bound x 960 ltac:(lia) Hx) as L3.
    apply abs_bnd in L2. apply abs_bnd in L3. apply abs_bnd in X2. change (IZR 960) with 960 in L3.
    split; [exact L1|]. split; apply Rabs_le; lra. }
  split.
  - destruct one_ok as [F1 E1]. destruct (sub_ok f_one q' F1 Fp) as [Fs Es].
    { rewrite E1. apply Rabs_le. pose proof (b2_le 1 1023 ltac:(lia)) as Hl. change (b2 1) with 2 in Hl. nra. }
    rewrite E1 in Es. pose proof (sub_rel 1 (B2R q') ltac:(rewrite <- E1; apply fmt_B2R) (fmt_B2R q')) as Hs. rewrite <- Es in Hs.
    assert (Hx : Rabs (1 - B2R q') <= (1 + delta) * (1 - q)) by (apply Rabs_le; lra).
    apply (fin (1 - q) _ (delta + 2 * u53)); [exact Fs| | |lra].
    + split; [|nra]. apply Rle_trans with (b2 (-900)); [apply b2_le; lia|lra].
    + assert (Hs' : Rabs (B2R (f_sub f_one q') - (1 - B2R q')) <= u53 * ((1 + delta) * (1 - q))) by (eapply Rle_trans; [exact Hs|apply Rmult_le_compat_l; lra]).
      apply abs_bnd in Hs'. apply Rabs_le.
      assert (u53 * ((1 + delta) * (1 - q)) <= 2 * u53 * (1 - q)) by (assert (0 <= 1 - q) by nra; assert (0 <= u53 * (1 - q)) by nra; nra).
      lra.
  - intros m Hm. assert (Hmn : (m * n_dim <= n * n_dim)%nat) by nia.
    assert (Hpos : (1 <= m * n_dim)%nat) by nia.
    destruct (nat_float (m * n_dim) ltac:(lia)) as [Fn En]. rewrite <- mult_INR.
    set (N := INR (m * n_dim)) in *.
    assert (HN : 1 <= N <= b2 53).
    { unfold N. split; [change 1 with (INR 1); apply le_INR; exact Hpos|]. rewrite INR_IZR_INZ. change (b2 53) with (IZR (2 ^ 53)). apply IZR_le. lia. }
    assert (Hq : b2 (-953) <= q / N).
    { apply Rmult_le_reg_r with N; [lra|]. unfold Rdiv. rewrite Rmult_assoc, Rinv_l by lra. rewrite Rmult_1_r.
      apply Rle_trans with (b2 (-953) * b2 53); [apply Rmult_le_compat_l; [left; apply b2_pos|lra]|]. rewrite <- bpow_plus. simpl (-953 + 53)%Z. lra. }
    assert (HiN : 0 < / N) by (apply Rinv_0_lt_compat; lra).
    assert (HiN1 : / N <= 1) by (rewrite <- Rinv_1; apply Rinv_le_contravar; lra).
    assert (Hq1 : q / N <= 1) by (unfold Rdiv; nra).
    assert (Hqq : Rabs (B2R q' / N - q / N) <= rho * (q / N)).
    { replace (B2R q' / N - q / N) with ((B2R q' - q) * / N) by (unfold Rdiv; ring). rewrite Rabs_mult, (Rabs_pos_eq (/ N)) by lra.
      replace (rho * (q / N)) with (rho * q * / N) by (unfold Rdiv; ring). apply Rmult_le_compat_r; [lra|apply Rabs_le; lra]. }
    apply abs_bnd in Hqq.
    assert (Hlow : b2 (-960) <= B2R q' / N).
    { apply Rle_trans with (/ 2 * b2 (-953)); [|nra]. change (b2 (-953)) with (b2 (7 + -960)). rewrite bpow_plus. change (b2 7) with 128. pose proof (b2_pos (-960)). lra. }
    assert (Habs : Rabs (B2R q' / N) <= 2) by (apply Rabs_le; pose proof (b2_pos (-960)); nra).
    destruct (div_ok q' (f_nat (m * n_dim)) Fp) as [Fd Ed].
    { rewrite En. lra. }
    { rewrite En. eapply Rle_trans; [exact Habs|]. apply (b2_le 1 1023). lia. }
    rewrite En in Ed. fold N in Ed.
    pose proof (RN64_rel (B2R q' / N)) as Hr. rewrite <- Ed in Hr.
    assert (Hrr : Rabs (B2R (f_div q' (f_nat (m * n_dim))) - B2R q' / N) <= u53 * Rabs (B2R q' / N)).
    { apply Hr. rewrite Rabs_pos_eq by (pose proof (b2_pos (-960)); lra). eapply Rle_trans; [apply b2_le|exact Hlow]. lia. }
    rewrite (Rabs_pos_eq (B2R q' / N)) in Hrr by (pose proof (b2_pos (-960)); lra). apply abs_bnd in Hrr.
    apply (fin (q / N) _ (delta + 2 * u53)); [exact Fd| | |lra].
    + split; [eapply Rle_trans; [apply b2_le|exact Hq]; lia|exact Hq1].
    + set (x := q / N) in *. set (z := B2R q' / N) in *. pose proof (b2_pos (-953)).
      assert (Hz : z <= 2 * x) by nra. assert (u53 * z <= 2 * u53 * x) by nra. assert (rho * x <= delta * x) by nra.
      apply Rabs_le. lra.
Qed.

(** ** Beta functions at integers *)
Lemma nat_add a b : (1 <= a)%nat -> (Z.of_nat (a + b) < 2 ^ 53)%Z -> f_add (f_nat a) (f_nat b) = f_nat (a + b).
Proof.
  intros Ha H. destruct (int_add (f_nat a) (f_nat b) (Z.of_nat a) (Z.of_nat b)) as [F E]; try (apply int_nat; lia); [lia|].
  destruct (int_nat (a + b) H) as [F' E']. rewrite Nat2Z.inj_add in E'. apply (B2R_inj 53 1024).
  - apply is_finite_strict_B2R. rewrite E. apply IZR_neq. lia.
  - apply is_finite_strict_B2R. rewrite E'. apply IZR_neq. lia.
  - congruence.
Qed.

(** Two classes with a prior of positive integers. *)
Theorem betaln_two fsum fgammaln fbetaln a b n eb B : (1 <= a)%nat -> (1 <= b)%nat -> (Z.of_nat (a + b + n) < 2 ^ 53)%Z ->
  betaln_accurate fbetaln (a + b + n) eb B -> betaln_within fsum fgammaln fbetaln [f_nat a; f_nat b] n eb B.
Proof.
  intros Ha Hb Hm Hacc.
  assert (R1 : B2R (f_nat a) = INR a) by (apply nat_float; lia). assert (R2 : B2R (f_nat b) = INR b) by (apply nat_float; lia).
  split.
  - cbn [map multivariate_betaln cl64_betaln]. rewrite R1, R2. apply Hacc; lia.
  - intros [|x [|y [|z l]]] Hl Hs; try discriminate Hl. simpl in Hs. cbn [map map2 cl64_betaln multivariate_betaln].
    rewrite !nat_add, R1, R2, <- !plus_INR by lia. apply Hacc; lia.
Qed.

Lemma abs_zero x : Rabs x <= 0 -> x = 0.
Proof. intros H. apply abs_bnd in H. lra. Qed.

(** More classes: any order of summation. *)
Lemma sum_within e B l a : sum_of l a -> forall xs, Forall2 (within e B) l xs -> INR (length l) <= b2 20 -> B <= b2 900 ->
  let m := INR (length l) in
  is_finite a = true /\ Rabs (B2R a) <= m * B * (1 + 2 * m * u53) /\ Rabs (B2R a - vsum xs) <= m * e + 2 * m * m * u53 * B.
Proof.
  induction 1 as [|a|l l1 l2 a b Hp H1 IH1 H2 IH2]; intros xs Hx Hl HB m.
  - inversion Hx; subst. subst m. simpl. unfold vsum. simpl. rewrite Rabs_R0, Rminus_0_r, Rabs_R0. split; [reflexivity|]. lra.
  - inversion Hx as [|? x ? xs' Ha Hx']; subst. inversion Hx'; subst. destruct (within_pos _ _ _ _ Ha) as [P1 P2]. destruct Ha as (F & A1 & A2).
    subst m. unfold vsum. simpl. assert (Hu : 0 < u53) by (rewrite u53_val; lra). assert (0 <= u53 * B) by nra.
    split; [exact F|]. rewrite Rplus_0_r. split; nra.
  - assert (exists xs', Permutation xs xs' /\ Forall2 (within e B) (l1 ++ l2) xs') as (xs' & Hp' & Hx').
    { clear -Hp Hx. revert xs Hx. induction Hp as [|x l l' Hp IH|x y l|l l' l'' Hp IH Hp' IH']; intros zs Hz.
      - exists zs. split; [apply Permutation_refl|exact Hz].
      - inversion Hz as [|? z ? zs0 Hx Hz0]; subst. destruct (IH zs0 Hz0) as (zs' & H1 & H2). exists (z :: zs'). split; [constructor; exact H1|constructor; auto].
      - inversion Hz as [|? z ? zs0 Hx Hz0]; subst. inversion Hz0 as [|? z' ? zs1 Hx' Hz1]; subst. exists (z' :: z :: zs1). split; [apply perm_swap|constructor; auto].
      - destruct (IH zs Hz) as (zs' & H1 & H2). destruct (IH' zs' H2) as (zs'' & H3 & H4). exists zs''. split; [eapply perm_trans; eauto|exact H4]. }
    rewrite (vsum_perm' _ _ Hp'). clear xs Hx Hp'.
    assert (El : m = INR (length l1) + INR (length l2)) by (unfold m; rewrite (Permutation_length Hp), app_length, plus_INR; reflexivity).
    fold m in Hl. clearbody m. rewrite El in Hl.
    apply Forall2_app_inv_l in Hx' as (x1 & x2 & Hx1 & Hx2 & ->). rewrite vsum_app'.
    pose proof (pos_INR (length l1)) as P1. pose proof (pos_INR (length l2)) as P2.
    destruct (IH1 x1 Hx1 ltac:(lra) HB) as (Fa & Ba & Ea). destruct (IH2 x2 Hx2 ltac:(lra) HB) as (Fb & Bb & Eb). clear IH1 IH2.
    assert (Hz : (l1 = [] /\ B2R a = 0 \/ 1 <= INR (length l1)) /\ (l2 = [] /\ B2R b = 0 \/ 1 <= INR (length l2))).
    { split; [destruct l1|destruct l2]; try (left; split; [reflexivity|]).
      - simpl in Ba. rewrite !Rmult_0_l in Ba. apply abs_zero. lra.
      - right. change 1 with (INR 1). apply le_INR. simpl. lia.
      - simpl in Bb. rewrite !Rmult_0_l in Bb. apply abs_zero. lra.
      - right. change 1 with (INR 1). apply le_INR. simpl. lia. }
    assert (Hu : 0 < u53 <= / 9007199254740992) by (rewrite u53_val; lra).
    change (b2 20) with 1048576 in Hl.
    set (m1 := INR (length l1)) in *. set (m2 := INR (length l2)) in *.
    assert (Hs : Rabs (B2R a + B2R b) <= bpow radix2 1023).
    { destruct (Rle_or_lt 0 B) as [HB0|HB0].
      - eapply Rle_trans; [apply Rabs_triang|]. apply Rle_trans with (4194304 * B).
        + assert (A1 : m1 * B * (1 + 2 * m1 * u53) <= 2097152 * B).
          { rewrite Rmult_assoc, (Rmult_comm B), <- Rmult_assoc. apply Rmult_le_compat_r; [exact HB0|]. assert (2 * m1 * u53 <= 1) by nra. nra. }
          assert (A2 : m2 * B * (1 + 2 * m2 * u53) <= 2097152 * B).
          { rewrite Rmult_assoc, (Rmult_comm B), <- Rmult_assoc. apply Rmult_le_compat_r; [exact HB0|]. assert (2 * m2 * u53 <= 1) by nra. nra. }
          lra.
        + apply Rle_trans with (b2 22 * b2 900); [change (b2 22) with 4194304; lra|]. rewrite <- bpow_plus. apply b2_le. lia.
      - assert (l1 = [] /\ l2 = []) as [-> ->].
        { split; [inversion Hx1 as [|? ? ? ? W]|inversion Hx2 as [|? ? ? ? W]]; auto; destruct (within_pos _ _ _ _ W); lra. }
        destruct Hz as [[[_ ->]|Z1] [[_ ->]|Z2]]; unfold m1, m2 in *; cbn [length INR] in *; try lra. rewrite Rplus_0_l, Rabs_R0. left. apply b2_pos. }
    destruct (add_ok a b Fa Fb Hs) as [Fc Ec]. split; [exact Fc|]. rewrite Ec, El.
    destruct Hz as [[[E0 Z0]|Z1] [[E0' Z0']|Z2]].
    + subst l1 l2. unfold m1, m2 in *. simpl in *. inversion Hx1; subst. inversion Hx2; subst. rewrite Z0, Z0', Rplus_0_l, RN64_0. unfold vsum. simpl.
      rewrite Rplus_0_l, Rminus_0_r, Rabs_R0. lra.
    + subst l1. unfold m1 in *. simpl in *. inversion Hx1; subst. rewrite Z0, Rplus_0_l, (RN64_fmt _ (fmt_B2R b)). unfold vsum at 1. simpl. rewrite !Rplus_0_l. auto.
    + subst l2. unfold m2 in *. simpl in *. inversion Hx2; subst. rewrite Z0', Rplus_0_r, (RN64_fmt _ (fmt_B2R a)). unfold vsum at 2. simpl. rewrite !Rplus_0_r. auto.
    + assert (HB0 : 0 <= B). { destruct l1; [unfold m1 in Z1; simpl in Z1; lra|]. inversion Hx1 as [|? ? ? ? W]; subst. apply within_pos in W. lra. }
      pose proof (add_rel (B2R a) (B2R b) (fmt_B2R a) (fmt_B2R b)) as Hr.
      assert (Hab : Rabs (B2R a + B2R b) <= B * ((m1 + m2) + 2 * u53 * (m1 * m1 + m2 * m2))).
      { eapply Rle_trans; [apply Rabs_triang|]. eapply Rle_trans; [apply Rplus_le_compat; [exact Ba|exact Bb]|]. right. ring. }
      assert (Hq : 2 * u53 * (m1 * m1 + m2 * m2) <= m1 + m2) by (assert (2 * u53 * m1 <= 1) by nra; assert (2 * u53 * m2 <= 1) by nra; nra).
      assert (Hmm : m1 + m2 <= 2 * (m1 * m2)) by nra.
      assert (Hr2 : u53 * Rabs (B2R a + B2R b) <= u53 * (B * (4 * (m1 * m2)))).
      { apply Rmult_le_compat_l; [lra|]. eapply Rle_trans; [exact Hab|]. apply Rmult_le_compat_l; [exact HB0|]. lra. }
      assert (Hr3 : Rabs (RN64 (B2R a + B2R b) - (B2R a + B2R b)) <= u53 * (B * (4 * (m1 * m2)))) by lra.
      apply abs_bnd in Hr3. apply abs_bnd in Hab. apply abs_bnd in Ea. apply abs_bnd in Eb.
      split; apply Rabs_le; split; nra.
Qed.

Lemma f_nats_int ks : (Z.of_nat (list_sum ks) < 2 ^ 53)%Z -> Forall2 is_int (map f_nat ks) (map Z.of_nat ks).
Proof.
  intros H. assert (Hall : forall x, In x ks -> (Z.of_nat x < 2 ^ 53)%Z).
  { intros x Hx. apply in_split in Hx as (l1 & l2 & ->). rewrite list_sum_app in H. simpl in H. lia. }
  clear H. induction ks as [|x ks IH]; constructor; [apply int_nat, Hall; left; reflexivity|apply IH; intros; apply Hall; right; assumption].
Qed.
Lemma zsum_nat ks : zsum (map Z.of_nat ks) = Z.of_nat (list_sum ks) /\ zsum (map Z.abs (map Z.of_nat ks)) = Z.of_nat (list_sum ks).
Proof. induction ks as [|x ks [IH1 IH2]]; [split; reflexivity|]. unfold zsum, list_sum in *. simpl. lia. Qed.

(** The general formula at positive integers. *)
Definition beta_err (k : nat) (eg G : R) : R := (INR k + 1) * eg + (2 * INR k * INR k + 3 * INR k) * u53 * G.
Definition beta_size (k : nat) (G : R) : R := 6 * INR k * G.
Theorem betaln_many fsum fgammaln fbetaln ps n eg G : (3 <= length ps)%nat -> INR (length ps) <= b2 20 -> Forall (fun a => (1 <= a)%nat) ps ->
  (Z.of_nat (list_sum ps + n) < 2 ^ 53)%Z -> (forall l, sum_of l (fsum l)) -> gammaln_accurate fgammaln (list_sum ps + n) eg G -> G <= b2 900 ->
  betaln_within fsum fgammaln fbetaln (map f_nat ps) n (beta_err (length ps) eg G) (beta_size (length ps) G).
Proof.
  intros Hk Hk2 Hpos Hm Hsum Hacc HG.
  assert (main : forall qs, length qs = length ps -> Forall (fun a => (1 <= a)%nat) qs -> (list_sum qs <= list_sum ps + n)%nat ->
    within (beta_err (length ps) eg G) (beta_size (length ps) G) (cl64_betaln fsum fgammaln fbetaln (map f_nat qs)) (multivariate_betaln (map INR qs))).
  { intros qs Hl Hq Hs.
    assert (E1 : cl64_betaln fsum fgammaln fbetaln (map f_nat qs) = f_sub (fsum (map fgammaln (map f_nat qs))) (fgammaln (fsum (map f_nat qs)))).
    { destruct qs as [|x [|y [|z qs]]]; simpl in Hl; try lia. reflexivity. }
    assert (E2 : multivariate_betaln (map INR qs) = vsum (map gammaln (map INR qs)) - gammaln (vsum (map INR qs))).
    { destruct qs as [|x [|y [|z qs]]]; simpl in Hl; try lia. reflexivity. }
    rewrite E1, E2, <- list_sum_INR.
    destruct (zsum_nat qs) as [Z1 Z2].
    assert (Hint : is_int (fsum (map f_nat qs)) (Z.of_nat (list_sum qs))).
    { rewrite <- Z1. apply sum_exact with (l := map f_nat qs); [apply Hsum|apply f_nats_int; lia|rewrite Z2; lia]. }
    assert (Hge : (1 <= list_sum qs)%nat).
    { destruct qs as [|x qs]; [simpl in Hl; lia|]. inversion Hq; subst. simpl. lia. }
    assert (Ef : fsum (map f_nat qs) = f_nat (list_sum qs)).
    { destruct Hint as [F E]. destruct (int_nat (list_sum qs) ltac:(lia)) as [F' E']. apply (B2R_inj 53 1024); [| |congruence];
        apply is_finite_strict_B2R; rewrite ?E, ?E'; apply IZR_neq; lia. }
    rewrite Ef. pose proof (Hacc (list_sum qs) ltac:(lia)) as W2.
    assert (Wl : Forall2 (within eg G) (map fgammaln (map f_nat qs)) (map gammaln (map INR qs))).
    { assert (Hin : forall x, In x qs -> (1 <= x <= list_sum ps + n)%nat).
      { intros x Hx. rewrite Forall_forall in Hq. specialize (Hq x Hx). apply in_split in Hx as (l1 & l2 & ->). rewrite list_sum_app in Hs. simpl in Hs. lia. }
      clear -Hin Hacc. induction qs as [|x qs IH]; simpl; constructor; [apply Hacc, Hin; left; reflexivity|apply IH; intros; apply Hin; right; assumption]. }
    assert (Elen : length (map fgammaln (map f_nat qs)) = length ps) by (rewrite !map_length; exact Hl).
    destruct (sum_within eg G _ _ (Hsum (map fgammaln (map f_nat qs))) _ Wl ltac:(rewrite Elen; exact Hk2) HG) as (S1 & S2 & S3).
    rewrite Elen in S2, S3. set (K := INR (length ps)) in *.
    destruct (within_pos _ _ _ _ W2) as [Pe PG].
    assert (HK : 3 <= K <= 1048576) by (split; [replace 3 with (INR 3) by (simpl; lra); apply le_INR; exact Hk|exact Hk2]).
    assert (Hu : 0 < u53 <= / 9007199254740992) by (rewrite u53_val; lra).
    assert (W1 : within (K * eg + 2 * K * K * u53 * G) (2 * K * G) (fsum (map fgammaln (map f_nat qs))) (vsum (map gammaln (map INR qs)))).
    { split; [exact S1|]. split; [|exact S3]. eapply Rle_trans; [exact S2|]. replace (2 * K * G) with (K * G * 2) by ring.
      apply Rmult_le_compat_l; [nra|]. nra. }
    assert (HB2 : 2 * K * G + G <= b2 1000).
    { apply Rle_trans with (b2 22 * b2 900); [|rewrite <- bpow_plus; apply b2_le; lia]. change (b2 22) with 4194304. nra. }
    eapply within_weaken; [apply within_sub; [exact W1|exact W2|exact HB2]| |].
    - unfold beta_err. fold K. assert (0 <= u53 * G) by nra. nra.
    - unfold beta_size. fold K. nra. }
  assert (EB : map B2R (map f_nat ps) = map INR ps).
  { rewrite map_map. apply map_ext_in. intros x Hx. apply nat_float. apply in_split in Hx as (l1 & l2 & ->). rewrite list_sum_app in Hm. simpl in Hm. lia. }
  split.
  - rewrite EB. apply main; auto. lia.
  - intros ks Hl Hs. rewrite map_length in Hl. rewrite EB.
    assert (E1 : map2 f_add (map f_nat ps) (map f_nat ks) = map f_nat (map2 Nat.add ps ks)).
    { revert ks Hl Hs Hm. clear -Hpos. induction Hpos as [|x ps Hx Hpos IH]; intros [|y ks] Hl Hs Hm; try discriminate; [reflexivity|]. simpl in *.
      rewrite nat_add by lia. f_equal. apply IH; lia. }
    assert (E2 : map2 Rplus (map INR ps) (map INR ks) = map INR (map2 Nat.add ps ks)).
    { clear Hs E1. revert ks Hl. clear. induction ps as [|x ps IH]; intros [|y ks] Hl; try discriminate; [reflexivity|]. simpl in *. rewrite <- plus_INR. f_equal. apply IH. lia. }
    rewrite E1, E2. clear E1 E2. apply main.
    + apply map2_len. lia.
    + revert ks Hl Hs. clear -Hpos. induction Hpos as [|x ps Hx Hpos IH]; intros [|y ks] Hl Hs; try discriminate; constructor; [lia|].
      simpl in *. apply IH; lia.
    + assert (Es : list_sum (map2 Nat.add ps ks) = (list_sum ps + list_sum ks)%nat).
      { clear Hs. revert ks Hl. clear. induction ps as [|x ps IH]; intros [|y ks] Hl; try discriminate; [reflexivity|]. simpl in *. rewrite IH by lia. lia. }
      lia.
Qed.
