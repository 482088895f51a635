(** * Gamma: the function scipy.special.gammaln on positive reals.

    Defined by Gauss' limit  lnGamma(x) = lim_n  x ln n + ln n! - sum_{k=0}^{n} ln (x+k).
    The definition is a standard one of the Gamma function (no oracle, no axiom); the facts used
    about it are proved here: lnGamma(1) = 0, the recurrence lnGamma(x+1) = lnGamma(x) + ln x and
    convexity, which by the Bohr-Mollerup theorem (also proved, [gammaln_unique]) characterise it. *)
From Coq Require Import Reals Lra Lia.
Open Scope R_scope.

(** n-th approximation with n = m + 1. *)
Definition gauss (x : R) (m : nat) : R :=
  x * ln (INR (S m)) + sum_f_R0 (fun k => ln (INR (S k))) m
  - sum_f_R0 (fun k => ln (x + INR k)) (S m).

Lemma ln_le_sub1 u : 0 < u -> ln u <= u - 1.
Proof.
  intros Hu. destruct (Req_dec u 1) as [->|Hn]. rewrite ln_1; lra.
  apply Rnot_lt_le; intros H.
  assert (H1 : exp (u - 1) < exp (ln u)) by (apply exp_increasing; lra).
  rewrite exp_ln in H1 by lra.
  assert (1 + (u-1) < exp (u-1)) by (apply exp_ineq1; lra). lra.
Qed.

Lemma ln_ge_1sub_inv u : 0 < u -> 1 - / u <= ln u.
Proof.
  intros Hu. pose proof (ln_le_sub1 (/u) (Rinv_0_lt_compat _ Hu)) as H.
  rewrite ln_Rinv in H by lra. lra.
Qed.

Lemma gauss_step x m : 0 < x ->
  gauss x (S m) - gauss x m
  = x * (ln (INR (S (S m))) - ln (INR (S m))) + ln (INR (S (S m))) - ln (x + INR (S (S m))).
Proof.
  intros Hx. unfold gauss. rewrite (tech5 _ (S m)).
  rewrite (tech5 (fun k => ln (INR (S k))) m). ring.
Qed.

Lemma gauss_growing x : 0 < x -> Un_growing (gauss x).
Proof.
  intros Hx m. pose proof (gauss_step x m Hx) as H.
  assert (Hp1 : 0 < INR (S m)) by (apply lt_0_INR; lia).
  assert (Hp2 : 0 < INR (S (S m))) by (apply lt_0_INR; lia).
  assert (E : INR (S (S m)) = INR (S m) + 1) by (rewrite (S_INR (S m)); reflexivity).
  set (a := INR (S m)) in *. set (b := INR (S (S m))) in *.
  assert (H1 : 1 - / (b / a) <= ln (b/a)).
  { apply ln_ge_1sub_inv. apply Rdiv_lt_0_compat; lra. }
  assert (H2 : ln ((x + b)/b) <= (x+b)/b - 1).
  { apply ln_le_sub1. apply Rdiv_lt_0_compat; lra. }
  unfold Rdiv in H1, H2. rewrite ln_mult, ln_Rinv in H1 by (try apply Rinv_0_lt_compat; lra).
  rewrite ln_mult, ln_Rinv in H2 by (try apply Rinv_0_lt_compat; lra).
  assert (E1 : 1 - / (b * / a) = / b) by (rewrite E; field; lra).
  assert (E2 : (x + b) * / b - 1 = x * / b) by (field; lra).
  rewrite E1 in H1. rewrite E2 in H2.
  assert (x * / b <= x * (ln b + - ln a)) by (apply Rmult_le_compat_l; lra).
  lra.
Qed.

Lemma gauss_bound x m : 0 < x ->
  gauss x m <= gauss x 0 + x * (1 + x) * (1 - / INR (S m)).
Proof.
  intros Hx. induction m as [|m IH].
  - simpl INR. rewrite Rinv_1. lra.
  - pose proof (gauss_step x m Hx) as H.
    assert (Hp1 : 0 < INR (S m)) by (apply lt_0_INR; lia).
    assert (E : INR (S (S m)) = INR (S m) + 1) by (rewrite (S_INR (S m)); reflexivity).
    set (a := INR (S m)) in *. set (b := INR (S (S m))) in *.
    assert (H1 : ln (b/a) <= b/a - 1) by (apply ln_le_sub1, Rdiv_lt_0_compat; lra).
    assert (H2 : 1 - / ((x+b)/b) <= ln ((x+b)/b)) by (apply ln_ge_1sub_inv, Rdiv_lt_0_compat; lra).
    unfold Rdiv in H1, H2. rewrite ln_mult, ln_Rinv in H1 by (try apply Rinv_0_lt_compat; lra).
    rewrite ln_mult, ln_Rinv in H2 by (try apply Rinv_0_lt_compat; lra).
    assert (E1 : b * / a - 1 = / a) by (rewrite E; field; lra).
    assert (E2 : 1 - / ((x + b) * / b) = x * / (x + b)) by (field; lra).
    rewrite E1 in H1. rewrite E2 in H2.
    assert (H3 : x * (ln b + - ln a) <= x * / a) by (apply Rmult_le_compat_l; lra).
    assert (H4 : x * / a - x * / (x+b) <= x * (1+x) * (/ a - / b)).
    { assert (x * / a - x * / (x+b) = x * (1 + x) * / (a * (x+b))) as -> by (rewrite E; field; lra).
      assert (x * (1 + x) * (/ a - / b) = x * (1+x) * / (a * b)) as -> by (rewrite E; field; lra).
      apply Rmult_le_compat_l; [nra|]. apply Rinv_le_contravar; nra. }
    lra.
Qed.

Lemma gauss_bounded x : 0 < x -> has_ub (gauss x).
Proof.
  intros Hx. exists (gauss x 0 + x * (1 + x)). intros r [m ->].
  pose proof (gauss_bound x m Hx). 
  assert (0 < / INR (S m)) by (apply Rinv_0_lt_compat, lt_0_INR; lia). nra.
Qed.

Definition gammaln_ex (x : R) (Hx : 0 < x) : {l : R | Un_cv (gauss x) l} :=
  growing_cv (gauss x) (gauss_growing x Hx) (gauss_bounded x Hx).

(** scipy.special.gammaln for positive arguments (utils.py:12, regression.py:113).
    For non-positive arguments scipy returns other values; the model returns 0 there and every
    numerical theorem is guarded by positivity. *)
Definition gammaln (x : R) : R :=
  match Rlt_dec 0 x with
  | left H => proj1_sig (gammaln_ex x H)
  | right _ => 0
  end.

Lemma gammaln_limit x : 0 < x -> Un_cv (gauss x) (gammaln x).
Proof.
  intros Hx. unfold gammaln. destruct (Rlt_dec 0 x) as [H|H]; [|contradiction].
  exact (proj2_sig (gammaln_ex x H)).
Qed.

Lemma ln_ratio_cv c : 0 <= c -> Un_cv (fun m => ln (INR (S m)) - ln (c + INR (S m))) 0.
Proof.
  intros Hc eps Heps.
  destruct (archimed ((c+1) / eps)) as [Hup _].
  set (N := Z.to_nat (up ((c+1) / eps))).
  exists N. intros n Hn.
  assert (Hp : 0 < INR (S n)) by (apply lt_0_INR; lia).
  assert (Hq : (c+1)/eps < INR (S n)).
  { eapply Rlt_le_trans; [exact Hup|].
    assert (0 < (c+1)/eps) by (apply Rdiv_lt_0_compat; lra).
    assert (0 <= up ((c+1)/eps))%Z. { apply le_IZR. simpl. lra. }
    rewrite <- (Z2Nat.id (up ((c+1)/eps))) by assumption.
    rewrite <- INR_IZR_INZ. apply le_INR. unfold N in Hn. lia. }
  unfold R_dist.
  assert (H1 : ln ((c + INR (S n)) / INR (S n)) <= (c + INR (S n)) / INR (S n) - 1)
    by (apply ln_le_sub1, Rdiv_lt_0_compat; lra).
  unfold Rdiv in H1. rewrite ln_mult, ln_Rinv in H1 by (try apply Rinv_0_lt_compat; lra).
  assert (E : (c + INR (S n)) * / INR (S n) - 1 = c / INR (S n)) by (field; lra).
  rewrite E in H1.
  assert (H0 : ln (INR (S n)) <= ln (c + INR (S n))).
  { destruct (Req_dec c 0) as [->|]; [rewrite Rplus_0_l; lra|].
    left; apply ln_increasing; lra. }
  rewrite Rabs_left1 by lra.
  assert (c / INR (S n) < eps).
  { apply (Rmult_lt_reg_r (INR (S n))); [lra|]. unfold Rdiv. rewrite Rmult_assoc, Rinv_l by lra.
    apply (Rmult_lt_compat_r eps) in Hq; [|lra]. unfold Rdiv in Hq.
    rewrite Rmult_assoc, Rinv_l in Hq by lra. lra. }
  lra.
Qed.

Lemma Un_cv_ext (u v : nat -> R) l : (forall n, u n = v n) -> Un_cv u l -> Un_cv v l.
Proof. intros E H eps He. destruct (H eps He) as [N HN]. exists N. intros n Hn. rewrite <- E. auto. Qed.

Lemma Un_cv_const c : Un_cv (fun _ => c) c.
Proof. intros eps He. exists 0%nat. intros. unfold R_dist. rewrite Rminus_diag_eq, Rabs_R0; auto. Qed.

(** The recurrence: lnGamma(x+1) = lnGamma(x) + ln x. *)
Lemma gauss_shift x m : 0 < x ->
  gauss (x + 1) m = gauss x m + (ln (INR (S m)) - ln ((x+1) + INR (S m))) + ln x.
Proof.
  intros Hx. unfold gauss.
  assert (E : forall N, sum_f_R0 (fun k => ln (x + 1 + INR k)) N
                        = sum_f_R0 (fun k => ln (x + INR k)) N + ln (x + 1 + INR N) - ln x).
  { induction N as [|N IH].
    - simpl. rewrite !Rplus_0_r. lra.
    - rewrite tech5, IH, tech5.
      replace (x + INR (S N)) with (x + 1 + INR N) by (rewrite S_INR; ring). lra. }
  rewrite E. ring.
Qed.

Lemma gammaln_succ x : 0 < x -> gammaln (x + 1) = gammaln x + ln x.
Proof.
  intros Hx.
  apply (UL_sequence (gauss (x+1))). apply gammaln_limit; lra.
  apply (Un_cv_ext (fun m => (gauss x m + (ln (INR (S m)) - ln ((x+1) + INR (S m)))) + ln x)).
  { intros n. symmetry. apply gauss_shift; auto. }
  replace (gammaln x + ln x) with ((gammaln x + 0) + ln x) by ring.
  apply (CV_plus (fun m => gauss x m + (ln (INR (S m)) - ln ((x+1) + INR (S m)))) (fun _ => ln x)).
  - apply (CV_plus (gauss x) (fun m => ln (INR (S m)) - ln ((x+1) + INR (S m)))).
    apply gammaln_limit; auto. apply ln_ratio_cv; lra.
  - apply Un_cv_const.
Qed.

Lemma gammaln_1 : gammaln 1 = 0.
Proof.
  apply (UL_sequence (gauss 1)). apply gammaln_limit; lra.
  apply (Un_cv_ext (fun m => ln (INR (S m)) - ln (1 + INR (S m)))).
  { intros n. unfold gauss. rewrite tech5.
    assert (E : sum_f_R0 (fun k => ln (INR (S k))) n = sum_f_R0 (fun k => ln (1 + INR k)) n).
    { apply sum_eq. intros i _. f_equal. rewrite S_INR. ring. }
    rewrite E. ring. }
  apply ln_ratio_cv; lra.
Qed.

(** Convexity. *)
Lemma ln_concave a b t : 0 < a -> 0 < b -> 0 <= t <= 1 ->
  t * ln a + (1 - t) * ln b <= ln (t * a + (1 - t) * b).
Proof.
  intros Ha Hb Ht. set (c := t * a + (1-t) * b).
  assert (Hc : 0 < c) by (unfold c; destruct (Req_dec t 0); [subst; lra | nra]).
  assert (Hi : 0 < / c) by (apply Rinv_0_lt_compat; auto).
  pose proof (ln_le_sub1 (a / c) ltac:(apply Rdiv_lt_0_compat; auto)) as H1.
  pose proof (ln_le_sub1 (b / c) ltac:(apply Rdiv_lt_0_compat; auto)) as H2.
  unfold Rdiv in H1, H2. rewrite ln_mult, ln_Rinv in H1, H2 by lra.
  assert (E : t * (a * / c - 1) + (1 - t) * (b * / c - 1) = 0).
  { replace (t * (a * / c - 1) + (1 - t) * (b * / c - 1)) with ((t*a + (1-t)*b) * / c - 1) by ring.
    fold c. rewrite Rinv_r by lra. ring. }
  assert (t * (ln a + - ln c) <= t * (a * / c - 1)) by (apply Rmult_le_compat_l; lra).
  assert ((1-t) * (ln b + - ln c) <= (1-t) * (b * / c - 1)) by (apply Rmult_le_compat_l; lra).
  lra.
Qed.

Lemma gauss_convex x z t m : 0 < x -> 0 < z -> 0 <= t <= 1 ->
  gauss (t * x + (1-t) * z) m <= t * gauss x m + (1-t) * gauss z m.
Proof.
  intros Hx Hz Ht. unfold gauss.
  assert (E : forall N, t * sum_f_R0 (fun k => ln (x + INR k)) N + (1-t) * sum_f_R0 (fun k => ln (z + INR k)) N
     <= sum_f_R0 (fun k => ln (t * x + (1-t) * z + INR k)) N).
  { assert (Hk : forall k, t * ln (x + INR k) + (1-t) * ln (z + INR k) <= ln (t * x + (1-t)*z + INR k)).
    { intros k. pose proof (pos_INR k). 
      replace (t * x + (1-t)*z + INR k) with (t * (x + INR k) + (1-t) * (z + INR k)) by ring.
      apply ln_concave; lra. }
    induction N as [|N IH]; [apply Hk|]. rewrite !tech5. specialize (Hk (S N)). lra. }
  specialize (E (S m)). lra.
Qed.

Lemma Un_cv_le u v a b : (forall n, u n <= v n) -> Un_cv u a -> Un_cv v b -> a <= b.
Proof.
  intros H Hu Hv. apply Rnot_lt_le. intros Hab.
  destruct (Hu ((a-b)/2) ltac:(lra)) as [N1 H1]. destruct (Hv ((a-b)/2) ltac:(lra)) as [N2 H2].
  specialize (H1 (max N1 N2) ltac:(lia)). specialize (H2 (max N1 N2) ltac:(lia)).
  specialize (H (max N1 N2)). unfold R_dist in *.
  apply Rabs_def2 in H1, H2. lra.
Qed.

Lemma gammaln_convex x z t : 0 < x -> 0 < z -> 0 <= t <= 1 ->
  gammaln (t * x + (1-t) * z) <= t * gammaln x + (1-t) * gammaln z.
Proof.
  intros Hx Hz Ht.
  assert (Hp : 0 < t * x + (1-t) * z) by (destruct (Req_dec t 0); [subst; lra | nra]).
  eapply Un_cv_le; [| apply gammaln_limit, Hp |].
  - intros n. apply gauss_convex; auto.
  - apply (CV_plus (fun n => t * gauss x n) (fun n => (1-t) * gauss z n)).
    + apply (CV_mult (fun _ => t) (gauss x)); [apply Un_cv_const | apply gammaln_limit; auto].
    + apply (CV_mult (fun _ => 1-t) (gauss z)); [apply Un_cv_const | apply gammaln_limit; auto].
Qed.

(** Bohr-Mollerup: recurrence, value at 1 and convexity determine the function. *)
Definition bm_convex (f : R -> R) : Prop := forall x z t, 0 < x -> 0 < z -> 0 <= t <= 1 ->
  f (t * x + (1-t) * z) <= t * f x + (1-t) * f z.

Lemma bm_shift f : (forall x, 0 < x -> f (x+1) = f x + ln x) ->
  forall n x, 0 < x -> f (x + INR (S n)) = f x + sum_f_R0 (fun k => ln (x + INR k)) n.
Proof.
  intros H n x Hx. induction n as [|n IH].
  - simpl. rewrite H by auto. rewrite Rplus_0_r. ring.
  - rewrite tech5. replace (x + INR (S (S n))) with ((x + INR (S n)) + 1) by (rewrite (S_INR (S n)); ring).
    rewrite H, IH. ring. pose proof (pos_INR (S n)); lra.
Qed.

Lemma bm_bounds f : (forall x, 0 < x -> f (x+1) = f x + ln x) -> bm_convex f ->
  forall n x, 0 < x <= 1 -> 
    f (INR n + 2) + x * ln (INR n + 1) <= f (INR n + 2 + x) <= f (INR n + 2) + x * ln (INR n + 2).
Proof.
  intros H C n x Hx. set (N := INR n + 2). assert (HN : 2 <= N) by (unfold N; pose proof (pos_INR n); lra).
  pose proof (H (N - 1) ltac:(lra)) as E1. replace (N - 1 + 1) with N in E1 by ring.
  pose proof (H N ltac:(lra)) as E2.
  replace (INR n + 1) with (N - 1) by (unfold N; ring). replace (INR n + 2) with N by reflexivity.
  split.
  - (* N between N-1 and N+x *)
    pose proof (C (N-1) (N+x) (x / (1+x)) ltac:(lra) ltac:(lra)) as HC.
    assert (Ht : 0 <= x/(1+x) <= 1).
    { split. apply Rlt_le, Rdiv_lt_0_compat; lra.
      apply (Rmult_le_reg_r (1+x)); [lra|]. unfold Rdiv. rewrite Rmult_assoc, Rinv_l; lra. }
    specialize (HC Ht).
    replace (x / (1+x) * (N-1) + (1 - x/(1+x)) * (N+x)) with N in HC by (field; lra).
    apply (Rmult_le_compat_l (1+x)) in HC; [|lra].
    replace ((1+x) * (x / (1+x) * f (N-1) + (1 - x/(1+x)) * f (N+x))) with (x * f (N-1) + f (N+x)) in HC by (field; lra).
    rewrite E1 in *. nra.
  - pose proof (C (N+1) N x ltac:(lra) ltac:(lra) ltac:(lra)) as HC.
    replace (x * (N+1) + (1-x) * N) with (N + x) in HC by ring.
    rewrite E2 in HC. nra.
Qed.

Lemma bm_unit f g : (forall x, 0 < x -> f (x+1) = f x + ln x) -> bm_convex f ->
  (forall x, 0 < x -> g (x+1) = g x + ln x) -> bm_convex g -> f 1 = g 1 ->
  forall x, 0 < x <= 1 -> f x = g x.
Proof.
  intros Hf Cf Hg Cg E1 x Hx.
  assert (B : forall n, Rabs (f x - g x) <= ln (1 + INR (S n)) - ln (INR (S n))).
  { intros n. pose proof (bm_bounds f Hf Cf n x Hx) as Bf. pose proof (bm_bounds g Hg Cg n x Hx) as Bg.
    assert (EN : INR n + 2 = 1 + INR (S n)) by (rewrite S_INR; ring).
    assert (EM : INR n + 2 = INR (S (S n))) by (rewrite !S_INR; ring).
    assert (f (INR n + 2) = g (INR n + 2)) as EE.
    { rewrite EN, (bm_shift f Hf n 1), (bm_shift g Hg n 1) by lra. lra. }
    rewrite EE in Bf.
    pose proof (bm_shift f Hf (S n) x ltac:(lra)) as Sf. pose proof (bm_shift g Hg (S n) x ltac:(lra)) as Sg.
    replace (x + INR (S (S n))) with (INR n + 2 + x) in Sf, Sg by (rewrite EM; ring).
    rewrite Sf in Bf. rewrite Sg in Bg.
    replace (INR n + 1) with (INR (S n)) in Bf, Bg by (rewrite S_INR; ring).
    rewrite <- EN.
    assert (ln (INR (S n)) <= ln (INR n + 2)).
    { left. apply ln_increasing. apply lt_0_INR; lia. rewrite S_INR; lra. }
    apply Rabs_le. nra. }
  apply Rminus_diag_uniq. destruct (Req_dec (f x - g x) 0) as [|Hn]; auto. exfalso.
  pose proof (Rabs_pos_lt _ Hn) as Hp.
  destruct (ln_ratio_cv 1 ltac:(lra) (Rabs (f x - g x)) Hp) as [N HN].
  specialize (HN N (le_n N)). unfold R_dist in HN. rewrite Rminus_0_r in HN.
  specialize (B N). rewrite Rabs_minus_sym in HN.
  pose proof (Rle_abs (ln (1 + INR (S N)) - ln (INR (S N)))). lra.
Qed.

Theorem gammaln_unique f : (forall x, 0 < x -> f (x+1) = f x + ln x) -> bm_convex f -> f 1 = 0 ->
  forall x, 0 < x -> f x = gammaln x.
Proof.
  intros Hf Cf E1.
  assert (U : forall x, 0 < x <= 1 -> f x = gammaln x).
  { apply bm_unit; auto. exact gammaln_succ. intros x z t. apply gammaln_convex. rewrite gammaln_1; auto. }
  assert (K : forall n x, 0 < x <= INR (S n) -> f x = gammaln x).
  { induction n as [|n IH]; intros x Hx.
    - apply U. simpl in Hx. lra.
    - destruct (Rle_dec x 1); [apply U; lra|].
      replace x with ((x - 1) + 1) by ring.
      rewrite Hf, gammaln_succ by lra. rewrite IH. reflexivity.
      rewrite (S_INR (S n)) in Hx. lra. }
  intros x Hx. destruct (archimed x) as [Hu _].
  apply (K (Z.to_nat (up x))). split; auto.
  assert (0 <= up x)%Z. { apply le_IZR. simpl. lra. }
  rewrite S_INR, INR_IZR_INZ, Z2Nat.id by auto. lra.
Qed.
