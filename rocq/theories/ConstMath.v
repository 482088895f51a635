(** * ConstMath: evidences of constant targets are superadditive (C74). *)
From Coq Require Import Reals Lra Permutation.
From Verif Require Import Prelude Perp Gamma RealOps Reg OptSpec ClfSpec ClfProofs RegSpec.
Local Open Scope R_scope.

(** ** The log-sum inequality *)
Lemma log_sum a1 a2 b1 b2 : 0 < a1 -> 0 < a2 -> 0 < b1 -> 0 < b2 ->
  (a1 + a2) * (ln (a1 + a2) - ln (b1 + b2)) <= a1 * (ln a1 - ln b1) + a2 * (ln a2 - ln b2).
Proof.
  intros Ha1 Ha2 Hb1 Hb2. set (s := (a1 + a2) / (b1 + b2)).
  assert (0 < s) as Hs by (apply Rdiv_lt_0_compat; lra).
  assert (ln s = ln (a1 + a2) - ln (b1 + b2)) as Es by (unfold s, Rdiv; rewrite ln_mult, ln_Rinv by (try apply Rinv_0_lt_compat; lra); ring).
  assert (forall a b, 0 < a -> 0 < b -> a - b * s <= a * (ln a - ln b - ln s)) as G.
  { intros a b Ha Hb. assert (0 < a / (b * s)) as Hq by (apply Rdiv_lt_0_compat; [lra|nra]). pose proof (ln_ge_1sub_inv _ Hq) as H.
    unfold Rdiv in H. rewrite ln_mult, ln_Rinv, ln_mult in H by (try apply Rinv_0_lt_compat; nra).
    assert (/ (a * / (b * s)) = b * s / a) as E by (field; split; [|split]; lra). rewrite E in H.
    replace (a - b * s) with (a * (1 - b * s / a)) by (field; lra). apply Rmult_le_compat_l; lra. }
  pose proof (G a1 b1 Ha1 Hb1). pose proof (G a2 b2 Ha2 Hb2).
  assert ((b1 + b2) * s = a1 + a2) by (unfold s; field; lra). rewrite <- Es. nra.
Qed.

(** Relative entropy is convex in both arguments. *)
Lemma entropy_convex u1 u2 b1 b2 t : 0 < u1 -> 0 < u2 -> 0 < b1 -> 0 < b2 -> 0 <= t <= 1 ->
  let u := t * u1 + (1 - t) * u2 in let b := t * b1 + (1 - t) * b2 in
  u * (ln u - ln b) <= t * (u1 * (ln u1 - ln b1)) + (1 - t) * (u2 * (ln u2 - ln b2)).
Proof.
  intros Hu1 Hu2 Hb1 Hb2 Ht u b. destruct (Req_dec t 0) as [E0|H0].
  { unfold u, b. rewrite E0. replace (0 * u1 + (1 - 0) * u2) with u2 by ring. replace (0 * b1 + (1 - 0) * b2) with b2 by ring. lra. }
  destruct (Req_dec t 1) as [E1|H1].
  { unfold u, b. rewrite E1. replace (1 * u1 + (1 - 1) * u2) with u1 by ring. replace (1 * b1 + (1 - 1) * b2) with b1 by ring. lra. }
  unfold u, b. eapply Rle_trans; [apply log_sum; nra|]. rewrite !ln_mult by lra. apply Req_le. ring.
Qed.

(** ** gammaln u - u ln u is convex *)
Definition gam (u : R) : R := gammaln u - u * ln u.
Definition defect (f : R -> R) (x z t : R) : R := t * f x + (1 - t) * f z - f (t * x + (1 - t) * z).

Lemma gam_step u : 0 < u -> gam u = gam (u + 1) + (u + 1) * (ln (u + 1) - ln u).
Proof. intros H. unfold gam. rewrite gammaln_succ by auto. ring. Qed.
Lemma mix_pos x z t : 0 < x -> 0 < z -> 0 <= t <= 1 -> 0 < t * x + (1 - t) * z.
Proof. intros. destruct (Req_dec t 0) as [->|]; [lra|nra]. Qed.
Lemma gam_defect_step x z t : 0 < x -> 0 < z -> 0 <= t <= 1 -> defect gam (x + 1) (z + 1) t <= defect gam x z t.
Proof.
  intros Hx Hz Ht. unfold defect. pose proof (mix_pos x z t Hx Hz Ht) as Hm. rewrite (gam_step x), (gam_step z), (gam_step (t * x + (1 - t) * z)) by auto.
  replace (t * (x + 1) + (1 - t) * (z + 1)) with (t * x + (1 - t) * z + 1) by ring.
  pose proof (entropy_convex (x + 1) (z + 1) x z t ltac:(lra) ltac:(lra) Hx Hz Ht) as H. cbv zeta in H.
  replace (t * (x + 1) + (1 - t) * (z + 1)) with (t * x + (1 - t) * z + 1) in H by ring. lra.
Qed.
Lemma gam_defect_far x z t N : 0 < x -> 0 < z -> 0 <= t <= 1 -> defect gam (x + INR N) (z + INR N) t <= defect gam x z t.
Proof.
  intros Hx Hz Ht. induction N as [|N IH]; [rewrite !Rplus_0_r; lra|]. eapply Rle_trans; [|exact IH]. rewrite S_INR.
  rewrite <- !Rplus_assoc. pose proof (pos_INR N). apply gam_defect_step; lra.
Qed.
Lemma xlnx_defect x z t : 0 < x -> 0 < z -> 0 <= t <= 1 -> defect (fun u => u * ln u) x z t <= t * (1 - t) * (x - z) ^ 2 / (t * x + (1 - t) * z).
Proof.
  intros Hx Hz Ht. pose proof (mix_pos x z t Hx Hz Ht) as Hm. set (m := t * x + (1 - t) * z) in *. unfold defect. fold m.
  assert (forall a, 0 < a -> a * (ln a - ln m) <= a * (a / m - 1)) as G.
  { intros a Ha. apply Rmult_le_compat_l; [lra|]. assert (0 < a / m) as Hq by (apply Rdiv_lt_0_compat; lra). pose proof (ln_le_sub1 _ Hq) as H.
    unfold Rdiv in H at 1. rewrite ln_mult, ln_Rinv in H by (try apply Rinv_0_lt_compat; lra). lra. }
  pose proof (G x Hx) as H1. pose proof (G z Hz) as H2.
  assert (t * (1 - t) * (x - z) ^ 2 / m = t * (x * (x / m - 1)) + (1 - t) * (z * (z / m - 1))) as ->.
  { apply (Rmult_eq_reg_r m); [|lra]. unfold Rdiv. rewrite !Rmult_assoc, Rinv_l, Rmult_1_r by lra. 
    replace ((t * (x * (x * / m - 1)) + (1 - t) * (z * (z * / m - 1))) * m) with (t * x * x * (/ m * m) - t * x * m + (1 - t) * z * z * (/ m * m) - (1 - t) * z * m) by ring.
    rewrite Rinv_l by lra. unfold m. ring. }
  replace (m * ln m) with (t * (x * ln m) + (1 - t) * (z * ln m)) by (unfold m; ring).
  assert (t * (x * (ln x - ln m)) <= t * (x * (x / m - 1))) by (apply Rmult_le_compat_l; lra).
  assert ((1 - t) * (z * (ln z - ln m)) <= (1 - t) * (z * (z / m - 1))) by (apply Rmult_le_compat_l; lra). lra.
Qed.
Lemma gam_convex x z t : 0 < x -> 0 < z -> 0 <= t <= 1 -> gam (t * x + (1 - t) * z) <= t * gam x + (1 - t) * gam z.
Proof.
  intros Hx Hz Ht. enough (0 <= defect gam x z t) as H by (unfold defect in H; lra).
  apply Rnot_lt_le. intros Hneg. set (e := - defect gam x z t) in *. assert (0 < e) as He by (unfold e; lra).
  set (c := t * (1 - t) * (x - z) ^ 2). assert (0 <= c) as Hc by (unfold c; apply Rmult_le_pos; [nra|apply pow2_ge_0]).
  destruct (archimed (c / e)) as [Hup _]. set (N := Z.to_nat (up (c / e))).
  assert (c / e < INR N) as HN.
  { unfold N. rewrite INR_IZR_INZ. destruct (Z_le_gt_dec 0 (up (c / e))) as [Hz0|Hz0].
    - now rewrite Z2Nat.id.
    - exfalso. assert (0 <= c / e) by (apply Rmult_le_pos; [lra|left; apply Rinv_0_lt_compat; lra]). assert (IZR (up (c / e)) < 0) by (apply IZR_lt; lia). lra. }
  pose proof (pos_INR N) as HN0. pose proof (gam_defect_far x z t N Hx Hz Ht) as H1.
  assert (0 < x + INR N) as Hx' by lra. assert (0 < z + INR N) as Hz' by lra.
  pose proof (xlnx_defect _ _ t Hx' Hz' Ht) as H2. pose proof (gammaln_convex _ _ t Hx' Hz' Ht) as H3.
  replace (x + INR N - (z + INR N)) with (x - z) in H2 by ring. fold c in H2.
  assert (c / (t * (x + INR N) + (1 - t) * (z + INR N)) < e) as H4.
  { pose proof (mix_pos _ _ t Hx' Hz' Ht) as Hm. pose proof (mix_pos _ _ t Hx Hz Ht) as Hm'. apply (Rmult_lt_reg_r (t * (x + INR N) + (1 - t) * (z + INR N))); [auto|].
    unfold Rdiv. rewrite Rmult_assoc, Rinv_l, Rmult_1_r by lra.
    assert (c < e * INR N) by (apply (Rmult_lt_compat_r e) in HN; [|auto]; unfold Rdiv in HN; rewrite Rmult_assoc, Rinv_l in HN by lra; lra).
    replace (t * (x + INR N) + (1 - t) * (z + INR N)) with (t * x + (1 - t) * z + INR N) by ring. nra. }
  unfold defect, gam in *. unfold e in H4. lra.
Qed.

(** ** Constant regression targets *)
Definition const_ev (p : ng) (d2 : R) (n : R) : R :=
  gammaln (ng_alpha p + n / 2) - gammaln (ng_alpha p) + ng_alpha p * ln (ng_beta p)
  - (ng_alpha p + n / 2) * ln (ng_beta p + ng_kappa p * n * d2 / (2 * (ng_kappa p + n)))
  + (ln (ng_kappa p) - ln (ng_kappa p + n)) / 2 - n / 2 * ln (2 * PI).

Lemma ln_concave x z t : 0 < x -> 0 < z -> 0 <= t <= 1 -> t * ln x + (1 - t) * ln z <= ln (t * x + (1 - t) * z).
Proof.
  intros Hx Hz Ht. pose proof (mix_pos x z t Hx Hz Ht) as Hm. set (m := t * x + (1 - t) * z) in *.
  assert (forall a, 0 < a -> ln a - ln m <= a / m - 1) as G.
  { intros a Ha. assert (0 < a / m) as Hq by (apply Rdiv_lt_0_compat; lra). pose proof (ln_le_sub1 _ Hq) as H.
    unfold Rdiv in H at 1. rewrite ln_mult, ln_Rinv in H by (try apply Rinv_0_lt_compat; lra). lra. }
  pose proof (G x Hx). pose proof (G z Hz).
  assert (t * (x / m - 1) + (1 - t) * (z / m - 1) = 0) as E.
  { unfold Rdiv. replace (t * (x * / m - 1) + (1 - t) * (z * / m - 1)) with ((t * x + (1 - t) * z) * / m - 1) by ring. fold m. rewrite Rinv_r by lra. ring. }
  assert (t * (ln x - ln m) <= t * (x / m - 1)) by (apply Rmult_le_compat_l; lra).
  assert ((1 - t) * (ln z - ln m) <= (1 - t) * (z / m - 1)) by (apply Rmult_le_compat_l; lra). lra.
Qed.

Lemma const_ev_part p d2 n t : reg_pok p -> 0 <= d2 -> 0 < n -> 0 <= t <= 1 -> const_ev p d2 (t * n) <= t * const_ev p d2 n.
Proof.
  intros (Hk & Ha & Hb) Hd Hn Ht. set (al := ng_alpha p) in *. set (be := ng_beta p) in *. set (ka := ng_kappa p) in *.
  set (bt := fun m => be + ka * m * d2 / (2 * (ka + m))).
  assert (forall m, 0 <= m -> be <= bt m) as Hbt.
  { intros m Hm. unfold bt. assert (0 <= ka * m * d2 / (2 * (ka + m))); [|lra]. apply Rmult_le_pos; [|left; apply Rinv_0_lt_compat; lra].
    apply Rmult_le_pos; [apply Rmult_le_pos; lra|lra]. }
  assert (0 <= t * n <= n) as Htn by nra.
  pose proof (Hbt n ltac:(lra)) as Hbn. pose proof (Hbt (t * n) ltac:(lra)) as Hbk.
  assert (al + t * n / 2 = t * (al + n / 2) + (1 - t) * al) as Eu by field.
  assert (ka + t * n = t * (ka + n) + (1 - t) * ka) as Ek by ring.
  assert (t * bt n + (1 - t) * be <= bt (t * n)) as Hconc.
  { unfold bt. enough (t * (ka * n * d2 / (2 * (ka + n))) <= ka * (t * n) * d2 / (2 * (ka + t * n))) by lra.
    replace (t * (ka * n * d2 / (2 * (ka + n)))) with (ka * (t * n) * d2 * / (2 * (ka + n))) by (field; lra).
    apply Rmult_le_compat_l; [apply Rmult_le_pos; [apply Rmult_le_pos; lra|lra]|]. apply Rinv_le_contravar; lra. }
  pose proof (gam_convex (al + n / 2) al t ltac:(lra) Ha Ht) as G1. rewrite <- Eu in G1.
  pose proof (entropy_convex (al + n / 2) al (bt n) be t ltac:(lra) Ha ltac:(lra) Hb Ht) as G2. cbv zeta in G2. rewrite <- Eu in G2.
  pose proof (ln_concave (ka + n) ka t ltac:(lra) Hk Ht) as G3. rewrite <- Ek in G3.
  assert (ln (t * bt n + (1 - t) * be) <= ln (bt (t * n))) as G4.
  { pose proof (mix_pos (bt n) be t ltac:(lra) Hb Ht) as Hm. destruct (Req_dec (t * bt n + (1 - t) * be) (bt (t * n))) as [->|]; [lra|]. left. apply ln_increasing; lra. }
  assert ((al + t * n / 2) * ln (t * bt n + (1 - t) * be) <= (al + t * n / 2) * ln (bt (t * n))) as G5 by (apply Rmult_le_compat_l; lra).
  unfold const_ev. fold al be ka. change (be + ka * n * d2 / (2 * (ka + n))) with (bt n). change (be + ka * (t * n) * d2 / (2 * (ka + t * n))) with (bt (t * n)).
  unfold gam in G1. nra.
Qed.
Lemma const_ev_super p d2 a b : reg_pok p -> 0 <= d2 -> 0 <= a -> 0 <= b -> 0 < a + b -> const_ev p d2 a + const_ev p d2 b <= const_ev p d2 (a + b).
Proof.
  intros Hp Hd Ha Hb Hab. assert (0 < / (a + b)) as Hi by now apply Rinv_0_lt_compat.
  assert (forall c, 0 <= c -> c <= a + b -> const_ev p d2 c <= c / (a + b) * const_ev p d2 (a + b)) as G.
  { intros c Hc Hcab. replace c with (c / (a + b) * (a + b)) at 1 by (field; lra). apply const_ev_part; auto. split; [unfold Rdiv; nra|].
    apply (Rmult_le_reg_r (a + b)); [auto|]. unfold Rdiv. rewrite Rmult_assoc, Rinv_l by lra. lra. }
  pose proof (G a Ha ltac:(lra)). pose proof (G b Hb ltac:(lra)).
  replace (const_ev p d2 (a + b)) with (a / (a + b) * const_ev p d2 (a + b) + b / (a + b) * const_ev p d2 (a + b)) by (field; lra). lra.
Qed.

Lemma const_sum c l : Forall (fun y => y = c) l -> vsum l = INR (length l) * c.
Proof.
  induction 1 as [|y l -> Hl IH]; [cbn; ring|]. unfold vsum in *. cbn [fold_right]. rewrite IH. change (length (c :: l)) with (S (length l)). rewrite S_INR. ring.
Qed.
Lemma const_logev p c l : reg_pok p -> Forall (fun y => y = c) l -> ng_logev p l = const_ev p ((c - ng_mu p) ^ 2) (INR (length l)).
Proof.
  intros (Hk & Ha & Hb) Hl. unfold ng_logev, const_ev, ng_update. cbn [ng_alpha ng_beta ng_kappa]. rewrite Rmult_1_r.
  assert (INR (length l) * (mean l - ng_mu p) ^ 2 = INR (length l) * (c - ng_mu p) ^ 2) as Em.
  { destruct l as [|y l]; [cbn; ring|]. unfold mean. rewrite (const_sum c) by auto.
    replace (INR (length (y :: l)) * c / INR (length (y :: l))) with c; [auto|]. field. apply not_0_INR. discriminate. }
  assert (ssd l = 0) as Es.
  { unfold ssd. rewrite (const_sum 0); [ring|]. apply Forall_forall. intros z Hz. apply in_map_iff in Hz as (y & <- & Hy). rewrite Forall_forall in Hl. rewrite (Hl y Hy).
    unfold mean. rewrite (const_sum c) by (now apply Forall_forall). replace (INR (length l) * c / INR (length l)) with c; [ring|].
    field. apply not_0_INR. destruct l; [destruct Hy|discriminate]. }
  rewrite Es. replace (ng_beta p + 1 * 0 / 2 + 1 * (ng_kappa p * INR (length l) * (mean l - ng_mu p) ^ 2) / (2 * (ng_kappa p + INR (length l))))
    with (ng_beta p + ng_kappa p * INR (length l) * (c - ng_mu p) ^ 2 / (2 * (ng_kappa p + INR (length l)))); [ring|].
  rewrite !Rmult_assoc, Em. field. pose proof (pos_INR (length l)). lra.
Qed.
(** The evidence of equal targets is at least the product of the evidences of two parts. *)
Lemma reg_superadditive p c l r ys : reg_pok p -> Forall (fun y => y = c) ys -> Permutation ys (l ++ r) ->
  ng_logev p l + ng_logev p r <= ng_logev p ys.
Proof.
  intros Hp Hys Hperm. assert (Forall (fun y => y = c) (l ++ r)) as Hlr by (eapply Permutation_Forall; eauto).
  pose proof (Permutation_length Hperm) as Hlen. rewrite app_length in Hlen. apply Forall_app in Hlr as [Hl Hr].
  rewrite !(const_logev p c) by auto. rewrite Hlen, plus_INR. destruct (Nat.eq_dec (length l + length r) 0) as [E|E].
  - assert (length l = 0%nat) as -> by lia. assert (length r = 0%nat) as -> by lia. change (INR 0) with 0. rewrite Rplus_0_r. 
    enough (const_ev p ((c - ng_mu p) ^ 2) 0 = 0) by lra. unfold const_ev. destruct Hp as (Hk & _).
    replace (ng_kappa p * 0 * (c - ng_mu p) ^ 2 / (2 * (ng_kappa p + 0))) with 0 by (field; lra). replace (0 / 2) with 0 by field. rewrite !Rplus_0_r. field.
  - apply const_ev_super; auto; try apply pos_INR; [apply pow2_ge_0|]. rewrite <- plus_INR. apply lt_0_INR. lia.
Qed.
