(** * FloatRegErr: rounding errors of the normal-gamma update and of the regression scores in float64. *)
From Coq Require Import Reals Lra Permutation Psatz.
From Flocq Require Import Core BinarySingleNaN.
From Verif Require Import Prelude Lists Tree Perp RealOps Gamma Reg OptSpec RegSpec RegProofs FloatFeat FloatProofs FloatReg FloatSum FloatNG FloatNGFit FloatClfSum FloatClfErr FloatOracle.
Local Open Scope R_scope.

(** ** Operations *)
Lemma RN64_near x y e B : Rabs (x - y) <= e -> Rabs y <= B -> Rabs (RN64 x - y) <= e + u53 * (B + e) + b2 (-1075).
Proof.
  intros H1 H2. pose proof (RN64_err x) as H3. assert (Hu : 0 < u53) by (rewrite u53_val; lra).
  assert (Rabs x <= B + e). { apply abs_bnd in H1. apply abs_bnd in H2. apply Rabs_le. lra. }
  assert (u53 * Rabs x <= u53 * (B + e)) by (apply Rmult_le_compat_l; lra).
  assert (H5 : Rabs (RN64 x - x) <= u53 * (B + e) + b2 (-1075)) by lra. apply abs_bnd in H5. apply abs_bnd in H1. apply Rabs_le. lra.
Qed.

Section Scale.
(** [w] is an upper bound of the relative errors, [E] the scale of the absolute error of a number of size at most [B]. *)
Variable w : R.
Hypothesis Hw : u53 <= w <= / 8192.
Definition ap (c B E : R) (a : float64) (x : R) : Prop :=
  is_finite a = true /\ Rabs x <= B /\ Rabs (B2R a - x) <= c * w * E /\ u53 * B <= w * E /\ b2 (-1000) <= E <= B /\ 0 <= c <= 80.

Lemma upos : 0 < u53.
Proof. rewrite u53_val. lra. Qed.
Lemma eta_small E : b2 (-1000) <= E -> b2 (-1075) <= / 1000 * (w * E).
Proof.
  intros H. assert (H0 : b2 (-1075) = b2 (-75) * b2 (-1000)) by (rewrite <- bpow_plus; reflexivity). pose proof (b2_pos (-1000)) as Hp.
  assert (H1 : b2 (-75) <= / 1000 * u53). { rewrite u53_val. change (b2 (-75)) with (/ 37778931862957161709568). lra. }
  rewrite H0. assert (b2 (-75) * b2 (-1000) <= / 1000 * u53 * b2 (-1000)) by (apply Rmult_le_compat_r; lra).
  assert (/ 1000 * u53 * b2 (-1000) <= / 1000 * (w * E)); [|lra].
  rewrite Rmult_assoc. apply Rmult_le_compat_l; [lra|]. pose proof upos. apply Rmult_le_compat; lra.
Qed.
Lemma ap_facts c B E a x : ap c B E a x -> 0 < E /\ 0 < B /\ 0 <= c * w * E <= / 100 * B.
Proof.
  intros (_ & _ & _ & H4 & (H5 & H6) & Hc). pose proof (b2_pos (-1000)). pose proof upos. split; [lra|]. split; [lra|].
  assert (0 <= w) by lra. split; [apply Rmult_le_pos; [apply Rmult_le_pos; lra|lra]|].
  assert (c * w <= 80 * / 8192) by (apply Rmult_le_compat; lra). assert (c * w * E <= 80 * / 8192 * E) by (apply Rmult_le_compat_r; lra). lra.
Qed.
Lemma ap_weaken c B E c' B' E' a x : ap c B E a x -> c <= c' <= 80 -> Rabs x <= B' -> E <= E' <= B' -> u53 * B' <= w * E' -> ap c' B' E' a x.
Proof.
  intros Ha Hc HB HE Hu. destruct (ap_facts _ _ _ _ _ Ha) as (F1 & F2 & F3). destruct Ha as (H1 & H2 & H3 & H4 & H5 & H6). pose proof upos.
  split; [exact H1|]. split; [exact HB|]. split; [|split; [exact Hu|split; lra]].
  eapply Rle_trans; [exact H3|]. apply Rmult_le_compat; [apply Rmult_le_pos; lra|lra|apply Rmult_le_compat_r; lra|lra].
Qed.
Lemma ap_exact B E a x : is_finite a = true -> B2R a = x -> Rabs x <= B -> u53 * B <= w * E -> b2 (-1000) <= E <= B -> ap 0 B E a x.
Proof. intros H1 H2 H3 H4 H5. split; [exact H1|]. split; [exact H3|]. rewrite H2, Rminus_eq_0, Rabs_R0. split; [lra|]. split; [exact H4|]. split; lra. Qed.
Lemma ap_bound c B E a x : ap c B E a x -> Rabs (B2R a) <= B + c * w * E.
Proof. intros (_ & H2 & H3 & _). apply abs_bnd in H2. apply abs_bnd in H3. apply Rabs_le. lra. Qed.

Lemma mul_ap c1 B1 E1 a x c2 B2 E2 b y E : ap c1 B1 E1 a x -> ap c2 B2 E2 b y -> B1 * E2 <= E -> B2 * E1 <= E -> E <= B1 * B2 -> b2 (-1000) <= E ->
  c1 * c2 <= 8000 -> c1 + c2 <= 77 -> B1 * B2 <= b2 1000 -> ap (c1 + c2 + 3) (B1 * B2) E (f_mul a b) (x * y).
Proof.
  intros Ha Hb HE1 HE2 HE3 HE4 Hc1 Hc2 HB. destruct (ap_facts _ _ _ _ _ Ha) as (P1 & P2 & P3 & P4). destruct (ap_facts _ _ _ _ _ Hb) as (Q1 & Q2 & Q3 & Q4).
  pose proof (ap_bound _ _ _ _ _ Ha) as Ba. pose proof (ap_bound _ _ _ _ _ Hb) as Bb.
  destruct Ha as (Fa & Xa & Da & Ua & Ea & Ca). destruct Hb as (Fb & Xb & Db & Ub & Eb & Cb). pose proof upos as Hu.
  set (d1 := c1 * w * E1) in *. set (d2 := c2 * w * E2) in *.
  assert (HX : Rabs (x * y) <= B1 * B2) by (rewrite Rabs_mult; apply Rmult_le_compat; auto using Rabs_pos).
  (* first and second order errors *)
  assert (HD : Rabs (B2R a * B2R b - x * y) <= (c1 + c2 + 1) * w * E).
  { replace (B2R a * B2R b - x * y) with (x * (B2R b - y) + (B2R a - x) * y + (B2R a - x) * (B2R b - y)) by ring.
    assert (T1 : Rabs (x * (B2R b - y)) <= B1 * d2) by (rewrite Rabs_mult; apply Rmult_le_compat; auto using Rabs_pos).
    assert (T2 : Rabs ((B2R a - x) * y) <= d1 * B2) by (rewrite Rabs_mult; apply Rmult_le_compat; auto using Rabs_pos).
    assert (T3 : Rabs ((B2R a - x) * (B2R b - y)) <= d1 * d2) by (rewrite Rabs_mult; apply Rmult_le_compat; auto using Rabs_pos).
    assert (S1 : B1 * d2 <= c2 * w * E). { unfold d2. replace (B1 * (c2 * w * E2)) with (c2 * w * (B1 * E2)) by ring. apply Rmult_le_compat_l; [apply Rmult_le_pos; lra|exact HE1]. }
    assert (S2 : d1 * B2 <= c1 * w * E). { unfold d1. replace (c1 * w * E1 * B2) with (c1 * w * (B2 * E1)) by ring. apply Rmult_le_compat_l; [apply Rmult_le_pos; lra|exact HE2]. }
    assert (S3 : d1 * d2 <= w * E).
    { unfold d1, d2. replace (c1 * w * E1 * (c2 * w * E2)) with (c1 * c2 * w * (w * (E1 * E2))) by ring.
      assert (E1 * E2 <= E) by (eapply Rle_trans; [|exact HE1]; apply Rmult_le_compat_r; lra).
      assert (0 <= E1 * E2) by (apply Rmult_le_pos; lra).
      assert (w * (E1 * E2) <= w * E) by (apply Rmult_le_compat_l; lra). assert (0 <= w * (E1 * E2)) by (apply Rmult_le_pos; lra).
      assert (0 <= c1 * c2) by (apply Rmult_le_pos; lra).
      assert (c1 * c2 * w <= 8000 * / 8192) by (apply Rmult_le_compat; lra).
      assert (c1 * c2 * w * (w * (E1 * E2)) <= 8000 * / 8192 * (w * (E1 * E2))) by (apply Rmult_le_compat_r; lra). lra. }
    eapply Rle_trans; [apply Rabs_triang|]. eapply Rle_trans; [apply Rplus_le_compat_r, Rabs_triang|]. lra. }
  assert (HM : Rabs (B2R a * B2R b) <= (101 / 100 * B1) * (101 / 100 * B2)).
  { rewrite Rabs_mult. apply Rmult_le_compat; auto using Rabs_pos; lra. }
  assert (0 < B1 * B2) by (apply Rmult_lt_0_compat; lra).
  destruct (mul_ok a b Fa Fb) as [F V].
  { eapply Rle_trans; [exact HM|]. apply Rle_trans with (2 * (B1 * B2)); [lra|]. apply Rle_trans with (b2 (1 + 1000)); [rewrite bpow_plus; change (b2 1) with 2; lra|apply b2_le; lia]. }
  split; [exact F|]. split; [exact HX|]. split; [|split; [|split; [lra|lra]]].
  - rewrite V. pose proof (RN64_err (B2R a * B2R b)) as HR. pose proof (eta_small E HE4) as Heta.
    assert (U : u53 * (B1 * B2) <= w * E).
    { replace (u53 * (B1 * B2)) with (B2 * (u53 * B1)) by ring. apply Rle_trans with (B2 * (w * E1)); [apply Rmult_le_compat_l; lra|].
      replace (B2 * (w * E1)) with (w * (B2 * E1)) by ring. apply Rmult_le_compat_l; lra. }
    assert (U2 : u53 * Rabs (B2R a * B2R b) <= 10201 / 10000 * (w * E)).
    { apply Rle_trans with (u53 * (101 / 100 * B1 * (101 / 100 * B2))); [apply Rmult_le_compat_l; lra|lra]. }
    assert (0 < w * E) by (apply Rmult_lt_0_compat; [lra|pose proof (b2_pos (-1000)); lra]).
    replace (RN64 (B2R a * B2R b) - x * y) with ((RN64 (B2R a * B2R b) - B2R a * B2R b) + (B2R a * B2R b - x * y)) by ring.
    eapply Rle_trans; [apply Rabs_triang|]. lra.
  - replace (u53 * (B1 * B2)) with (B2 * (u53 * B1)) by ring. apply Rle_trans with (B2 * (w * E1)); [apply Rmult_le_compat_l; lra|].
    replace (B2 * (w * E1)) with (w * (B2 * E1)) by ring. apply Rmult_le_compat_l; lra.
Qed.

(** Quotient by a positive number known up to one rounding. *)
Lemma div_ap c B E a x b y : ap c B E a x -> is_finite b = true -> 0 < y -> Rabs (B2R b - y) <= u53 * y -> b2 (-1000) <= E / y -> B / y <= b2 1000 -> c <= 74 ->
  ap (c + 6) (B / y) (E / y) (f_div a b) (x / y).
Proof.
  intros Ha Fb Hy Hb HE HB Hc. destruct (ap_facts _ _ _ _ _ Ha) as (P1 & P2 & P3 & P4). pose proof (ap_bound _ _ _ _ _ Ha) as Ba.
  destruct Ha as (Fa & Xa & Da & Ua & Ea & Ca). pose proof upos as Hu. assert (Hu1 : u53 <= / 9007199254740992) by (rewrite u53_val; lra).
  assert (Hi : 0 < / y) by (apply Rinv_0_lt_compat; exact Hy).
  apply abs_bnd in Hb. assert (Hb0 : 0 < B2R b) by nra.
  assert (Q : Rabs (y / B2R b - 1) <= 2 * u53).
  { replace (y / B2R b - 1) with ((y - B2R b) * / B2R b) by (field; lra). rewrite Rabs_mult, (Rabs_pos_eq (/ B2R b)) by (left; apply Rinv_0_lt_compat; exact Hb0).
    apply Rmult_le_reg_r with (B2R b); [exact Hb0|]. rewrite Rmult_assoc, Rinv_l, Rmult_1_r by lra.
    apply Rle_trans with (u53 * y); [apply Rabs_le; lra|]. nra. }
  set (r := y / B2R b) in *. assert (Eab : B2R a / B2R b = B2R a * / y * r) by (unfold r; field; lra).
  assert (HX : Rabs (x / y) <= B / y). { unfold Rdiv. rewrite Rabs_mult, (Rabs_pos_eq (/ y)) by lra. apply Rmult_le_compat_r; lra. }
  assert (HA : Rabs (B2R a * / y) <= 101 / 100 * (B / y)).
  { rewrite Rabs_mult, (Rabs_pos_eq (/ y)) by lra. unfold Rdiv. rewrite <- Rmult_assoc. apply Rmult_le_compat_r; lra. }
  assert (U : u53 * (B / y) <= w * (E / y)). { unfold Rdiv. rewrite <- !Rmult_assoc. apply Rmult_le_compat_r; lra. }
  assert (HBy : 0 < B / y) by (apply Rdiv_lt_0_compat; lra).
  assert (HwE : 0 < w * (E / y)) by (apply Rmult_lt_0_compat; [lra|apply Rdiv_lt_0_compat; lra]).
  assert (HD : Rabs (B2R a / B2R b - x / y) <= (c + 3) * w * (E / y)).
  { rewrite Eab. replace (B2R a * / y * r - x / y) with ((B2R a * / y) * (r - 1) + (B2R a - x) * / y) by (field; lra).
    assert (T1 : Rabs (B2R a * / y * (r - 1)) <= 101 / 100 * (B / y) * (2 * u53)) by (rewrite Rabs_mult; apply Rmult_le_compat; auto using Rabs_pos).
    assert (T2 : Rabs ((B2R a - x) * / y) <= c * w * (E / y)).
    { rewrite Rabs_mult, (Rabs_pos_eq (/ y)) by lra. unfold Rdiv. rewrite <- Rmult_assoc. apply Rmult_le_compat_r; lra. }
    eapply Rle_trans; [apply Rabs_triang|]. lra. }
  assert (HM : Rabs (B2R a / B2R b) <= 11 / 10 * (B / y)).
  { rewrite Eab, Rabs_mult. assert (Rabs r <= 101 / 100). { apply abs_bnd in Q. apply Rabs_le. lra. }
    assert (Rabs (B2R a * / y) * Rabs r <= 101 / 100 * (B / y) * (101 / 100)) by (apply Rmult_le_compat; auto using Rabs_pos). lra. }
  destruct (div_ok a b Fa) as [F V]; [lra| |].
  { eapply Rle_trans; [exact HM|]. apply Rle_trans with (2 * (B / y)); [lra|]. apply Rle_trans with (b2 (1 + 1000)); [rewrite bpow_plus; change (b2 1) with 2; lra|apply b2_le; lia]. }
  split; [exact F|]. split; [exact HX|]. split; [|split; [exact U|split; [split; [exact HE|]|lra]]].
  - rewrite V. pose proof (RN64_err (B2R a / B2R b)) as HR. pose proof (eta_small (E / y) HE) as Heta.
    assert (U2 : u53 * Rabs (B2R a / B2R b) <= 11 / 10 * (w * (E / y))).
    { apply Rle_trans with (u53 * (11 / 10 * (B / y))); [apply Rmult_le_compat_l; lra|lra]. }
    replace (RN64 (B2R a / B2R b) - x / y) with ((RN64 (B2R a / B2R b) - B2R a / B2R b) + (B2R a / B2R b - x / y)) by ring.
    eapply Rle_trans; [apply Rabs_triang|]. lra.
  - unfold Rdiv. apply Rmult_le_compat_r; lra.
Qed.

Lemma add_ap c B1 E1 a x B2 E2 b y : ap c B1 E1 a x -> ap c B2 E2 b y -> B1 + B2 <= b2 1000 -> c <= 78 -> ap (c + 2) (B1 + B2) (E1 + E2) (f_add a b) (x + y).
Proof.
  intros Ha Hb HB Hc. destruct (ap_facts _ _ _ _ _ Ha) as (P1 & P2 & P3 & P4). destruct (ap_facts _ _ _ _ _ Hb) as (Q1 & Q2 & Q3 & Q4).
  pose proof (ap_bound _ _ _ _ _ Ha) as Ba. pose proof (ap_bound _ _ _ _ _ Hb) as Bb.
  destruct Ha as (Fa & Xa & Da & Ua & Ea & Ca). destruct Hb as (Fb & Xb & Db & Ub & Eb & Cb). pose proof upos as Hu. pose proof (b2_pos (-1000)).
  apply abs_bnd in Xa. apply abs_bnd in Xb. apply abs_bnd in Ba. apply abs_bnd in Bb.
  assert (HM : Rabs (B2R a + B2R b) <= 101 / 100 * (B1 + B2)) by (apply Rabs_le; lra).
  destruct (add_ok a b Fa Fb) as [F V].
  { eapply Rle_trans; [exact HM|]. apply Rle_trans with (2 * (B1 + B2)); [lra|]. apply Rle_trans with (b2 (1 + 1000)); [rewrite bpow_plus; change (b2 1) with 2; lra|apply b2_le; lia]. }
  split; [exact F|]. split; [apply Rabs_le; lra|]. split; [|split; [|split; [lra|lra]]].
  - rewrite V. pose proof (add_rel (B2R a) (B2R b) (fmt_B2R a) (fmt_B2R b)) as HR.
    assert (U2 : u53 * Rabs (B2R a + B2R b) <= 101 / 100 * (w * (E1 + E2))).
    { apply Rle_trans with (u53 * (101 / 100 * (B1 + B2))); [apply Rmult_le_compat_l; lra|lra]. }
    assert (0 < w * (E1 + E2)) by (apply Rmult_lt_0_compat; lra).
    apply abs_bnd in HR. apply abs_bnd in Da. apply abs_bnd in Db. apply Rabs_le. lra.
  - lra.
Qed.
Lemma sub_ap c B1 E1 a x B2 E2 b y : ap c B1 E1 a x -> ap c B2 E2 b y -> B1 + B2 <= b2 1000 -> c <= 78 -> ap (c + 2) (B1 + B2) (E1 + E2) (f_sub a b) (x - y).
Proof.
  intros Ha Hb HB Hc. destruct (ap_facts _ _ _ _ _ Ha) as (P1 & P2 & P3 & P4). destruct (ap_facts _ _ _ _ _ Hb) as (Q1 & Q2 & Q3 & Q4).
  pose proof (ap_bound _ _ _ _ _ Ha) as Ba. pose proof (ap_bound _ _ _ _ _ Hb) as Bb.
  destruct Ha as (Fa & Xa & Da & Ua & Ea & Ca). destruct Hb as (Fb & Xb & Db & Ub & Eb & Cb). pose proof upos as Hu. pose proof (b2_pos (-1000)).
  apply abs_bnd in Xa. apply abs_bnd in Xb. apply abs_bnd in Ba. apply abs_bnd in Bb.
  assert (HM : Rabs (B2R a - B2R b) <= 101 / 100 * (B1 + B2)) by (apply Rabs_le; lra).
  destruct (sub_ok a b Fa Fb) as [F V].
  { eapply Rle_trans; [exact HM|]. apply Rle_trans with (2 * (B1 + B2)); [lra|]. apply Rle_trans with (b2 (1 + 1000)); [rewrite bpow_plus; change (b2 1) with 2; lra|apply b2_le; lia]. }
  split; [exact F|]. split; [apply Rabs_le; lra|]. split; [|split; [|split; [lra|lra]]].
  - rewrite V. pose proof (sub_rel (B2R a) (B2R b) (fmt_B2R a) (fmt_B2R b)) as HR.
    assert (U2 : u53 * Rabs (B2R a - B2R b) <= 101 / 100 * (w * (E1 + E2))).
    { apply Rle_trans with (u53 * (101 / 100 * (B1 + B2))); [apply Rmult_le_compat_l; lra|lra]. }
    assert (0 < w * (E1 + E2)) by (apply Rmult_lt_0_compat; lra).
    apply abs_bnd in HR. apply abs_bnd in Da. apply abs_bnd in Db. apply Rabs_le. lra.
  - lra.
Qed.
End Scale.

(** ** The normal-gamma update with float64 operations *)
Definition ng_val (p : fng) : ng := mkNG (B2R (fn_mu p)) (B2R (fn_kappa p)) (B2R (fn_alpha p)) (B2R (fn_beta p)).
(** A prior whose four numbers are of ordinary size. *)
Definition sized_prior (M : R) (p : fng) : Prop :=
  is_finite (fn_mu p) = true /\ is_finite (fn_kappa p) = true /\ is_finite (fn_alpha p) = true /\ is_finite (fn_beta p) = true /\
  Rabs (B2R (fn_mu p)) <= M /\ b2 (-300) <= B2R (fn_kappa p) <= b2 300 /\ b2 (-300) <= B2R (fn_alpha p) <= b2 30 /\ b2 (-300) <= B2R (fn_beta p) <= b2 300.

Lemma prod_le x y i j : 0 <= x <= b2 i -> 0 <= y <= b2 j -> x * y <= b2 (i + j).
Proof. intros H1 H2. rewrite bpow_plus. apply Rmult_le_compat; lra. Qed.
Lemma sum_le_b2 x y i : x <= b2 i -> y <= b2 i -> x + y <= b2 (1 + i).
Proof. intros H1 H2. rewrite bpow_plus. change (b2 1) with 2. lra. Qed.

Lemma tiny x : / 1048576 / 1048576 <= x -> b2 (-1000) <= x.
Proof. intros H. apply Rle_trans with (b2 (-40)); [apply b2_le; lia|]. change (b2 (-40)) with (/ 1099511627776). lra. Qed.

Section Update.
Variables (N : nat) (M : R) (p : fng).
Hypothesis HN : (1 <= N)%nat.
Hypothesis HN20 : INR N <= b2 20.
Hypothesis HM : 1 <= M <= b2 300.
Hypothesis Hp : sized_prior M p.
Let w := INR N * INR N * u53.

Lemma w_ok : u53 <= w <= / 8192.
Proof.
  pose proof upos as Hu. assert (H1 : 1 <= INR N) by (change 1 with (INR 1); apply le_INR; exact HN). change (b2 20) with 1048576 in HN20.
  assert (1 <= INR N * INR N <= 1048576 * 1048576) by (split; [nra|apply Rmult_le_compat; lra]). unfold w. split; [nra|].
  apply Rle_trans with (1048576 * 1048576 * u53); [apply Rmult_le_compat_r; lra|]. rewrite u53_val. lra.
Qed.
Lemma um_w (m : nat) : (1 <= m <= N)%nat -> 1 <= INR m <= b2 20 /\ u53 * INR m <= w.
Proof.
  intros Hm. pose proof upos as Hu. assert (1 <= INR m) by (change 1 with (INR 1); apply le_INR; lia). assert (INR m <= INR N) by (apply le_INR; lia).
  split; [lra|]. unfold w. rewrite Rmult_comm. apply Rmult_le_compat_r; [lra|]. assert (INR m * 1 <= INR N * INR N) by (apply Rmult_le_compat; lra). lra.
Qed.
Lemma rescale c B E c' B' E' a x : ap w c B E a x -> c * E <= c' * E' -> 0 <= c' <= 80 -> Rabs x <= B' -> b2 (-1000) <= E' <= B' -> u53 * B' <= w * E' -> ap w c' B' E' a x.
Proof.
  intros Ha Hc Hc' HB HE Hu. destruct Ha as (H1 & H2 & H3 & H4 & H5 & H6). pose proof w_ok. pose proof upos.
  split; [exact H1|]. split; [exact HB|]. split; [|split; [exact Hu|split; lra]].
  eapply Rle_trans; [exact H3|]. replace (c * w * E) with (w * (c * E)) by ring. replace (c' * w * E') with (w * (c' * E')) by ring. apply Rmult_le_compat_l; lra.
Qed.

Variables (m : nat) (s q : float64) (S Q : R).
Hypothesis Hm : (1 <= m <= N)%nat.
Hypothesis Hs : ap w 8 (INR m * M) M s S.
Hypothesis Hq : ap w 16 (INR m * (M * M)) (M * M) q Q.
Hypothesis HSQ : 0 <= Q - S ^ 2 / INR m.

Lemma nat_exact : is_finite (f_nat m) = true /\ B2R (f_nat m) = INR m.
Proof.
  apply nat_float. destruct (um_w m Hm) as [[_ H] _]. rewrite INR_IZR_INZ in H. change (b2 20) with (IZR (2 ^ 20)) in H. apply le_IZR in H. lia.
Qed.
Lemma nat_one : is_finite (f_mul (f_nat m) f_one) = true /\ B2R (f_mul (f_nat m) f_one) = INR m.
Proof.
  destruct nat_exact as [F V]. destruct one_ok as [F1 V1]. destruct (um_w m Hm) as [[P1 P2] _].
  destruct (mul_ok (f_nat m) f_one F F1) as [F2 V2].
  { rewrite V, V1, Rmult_1_r, Rabs_pos_eq by lra. eapply Rle_trans; [exact P2|apply b2_le; lia]. }
  split; [exact F2|]. rewrite V2, V1, Rmult_1_r, RN64_fmt, V; [reflexivity|apply fmt_B2R].
Qed.
Lemma half_one : is_finite (f_mul f_half f_one) = true /\ B2R (f_mul f_half f_one) = / 2.
Proof.
  destruct half_ok as [F V]. destruct one_ok as [F1 V1]. destruct (mul_ok f_half f_one F F1) as [F2 V2].
  { rewrite V, V1, Rmult_1_r, Rabs_pos_eq by lra. apply Rle_trans with (b2 0); [change (b2 0) with 1; lra|apply b2_le; lia]. }
  split; [exact F2|]. rewrite V2, V1, Rmult_1_r, RN64_fmt, V; [reflexivity|apply fmt_B2R].
Qed.
Notation k := (B2R (fn_kappa p)).
Notation b0 := (B2R (fn_beta p)).
Notation mu := (B2R (fn_mu p)).

Lemma near_sum a b : is_finite a = true -> is_finite b = true -> 0 <= B2R a -> 0 <= B2R b -> B2R a + B2R b <= b2 1000 ->
  is_finite (f_add a b) = true /\ Rabs (B2R (f_add a b) - (B2R a + B2R b)) <= u53 * (B2R a + B2R b).
Proof.
  intros Fa Fb Pa Pb H. destruct (add_ok a b Fa Fb) as [F V]; [rewrite Rabs_pos_eq by lra; eapply Rle_trans; [exact H|apply b2_le; lia]|].
  split; [exact F|]. rewrite V. pose proof (add_rel (B2R a) (B2R b) (fmt_B2R a) (fmt_B2R b)) as HR. rewrite (Rabs_pos_eq (B2R a + B2R b)) in HR by lra. exact HR.
Qed.

Lemma kappa_close (d : float64) : is_finite d = true -> B2R d = INR m ->
  is_finite (f_add (fn_kappa p) d) = true /\ Rabs (B2R (f_add (fn_kappa p) d) - (k + INR m)) <= u53 * (k + INR m).
Proof.
  intros Fd Vd. destruct Hp as (_ & Fk & _ & _ & _ & Hk & _). destruct (um_w m Hm) as [[P1 P2] _]. pose proof (b2_pos (-300)).
  rewrite <- Vd. apply near_sum; auto; rewrite ?Vd; try lra.
  pose proof (b2_le 20 300 ltac:(lia)). apply Rle_trans with (b2 (1 + 300)); [apply sum_le_b2; lra|apply b2_le; lia].
Qed.

Let post := freg_post_internal p m s q f_one.
Let exact := reg_post_internal (ng_val p) (INR m) S Q 1.

Lemma inv_m : / 1048576 <= / INR m <= 1.
Proof.
  destruct (um_w m Hm) as [[P1 P2] _]. change (b2 20) with 1048576 in P2. split; [apply Rinv_le_contravar; lra|]. rewrite <- Rinv_1. apply Rinv_le_contravar; lra.
Qed.

Lemma mu_close : is_finite (fn_mu post) = true /\ Rabs (ng_mu exact) <= M /\ Rabs (B2R (fn_mu post) - ng_mu exact) <= 25 * w * M.
Proof.
  destruct Hp as (Fmu & Fk & _ & _ & Hmu & Hk & _). destruct (um_w m Hm) as [[P1 P2] Hum]. pose proof w_ok as Hw. pose proof upos as Hu.
  destruct nat_one as [Fn Vn]. destruct nat_exact as [Fm Vm]. pose proof (b2_pos (-300)) as B3. pose proof (b2_pos 300) as B4. pose proof inv_m as Him.
  unfold post, freg_post_internal. cbn [fn_mu fn_kappa fn_alpha fn_beta]. set (n1 := f_mul (f_nat m) f_one) in *.
  (* kappa * mu *)
  assert (Ak : ap w 0 k k (fn_kappa p) k).
  { apply ap_exact; auto; [rewrite Rabs_pos_eq; lra|apply Rmult_le_compat_r; lra|]. split; [|lra]. eapply Rle_trans; [apply (b2_le (-1000) (-300)); lia|lra]. }
  assert (Amu : ap w 0 M M (fn_mu p) mu).
  { apply ap_exact; auto; [apply Rmult_le_compat_r; lra|]. split; [apply tiny; lra|lra]. }
  assert (A1 : ap w (0 + 0 + 3) (k * M) (k * M) (f_mul (fn_kappa p) (fn_mu p)) (k * mu)).
  { eapply mul_ap; eauto; try lra.
    - apply Rle_trans with (b2 (-300)); [apply b2_le; lia|]. nra.
    - eapply Rle_trans; [apply (prod_le k M 300 300); lra|apply b2_le; lia]. }
  (* n * sum / n *)
  assert (An : ap w 0 (INR m) 1 n1 (INR m)).
  { apply ap_exact; auto; [rewrite Rabs_pos_eq; lra|lra|]. split; [apply tiny; lra|lra]. }
  assert (HmM : INR m * M <= b2 (20 + 300)) by (apply prod_le; lra).
  assert (A2 : ap w (0 + 8 + 3) (INR m * (INR m * M)) (INR m * M) (f_mul n1 s) (INR m * S)).
  { eapply mul_ap; eauto; try lra.
    - rewrite <- (Rmult_1_l (INR m * M)) at 1. apply Rmult_le_compat_r; [nra|lra].
    - apply tiny. nra.
    - eapply Rle_trans; [apply (prod_le (INR m) (INR m * M) 20 (20 + 300)); split; try lra; nra|apply b2_le; lia]. }
  assert (A3 : ap w (0 + 8 + 3 + 6) (INR m * (INR m * M) / INR m) (INR m * M / INR m) (f_div (f_mul n1 s) (f_nat m)) (INR m * S / INR m)).
  { eapply div_ap; eauto; try lra.
    - rewrite Vm, Rminus_eq_0, Rabs_R0. nra.
    - replace (INR m * M / INR m) with M by (field; lra). apply tiny. lra.
    - replace (INR m * (INR m * M) / INR m) with (INR m * M) by (field; lra). eapply Rle_trans; [exact HmM|apply b2_le; lia]. }
  replace (INR m * (INR m * M) / INR m) with (INR m * M) in A3 by (field; lra). replace (INR m * M / INR m) with M in A3 by (field; lra).
  assert (A4 : ap w (0 + 8 + 3 + 6 + 2) (k * M + INR m * M) (k * M + M) (f_add (f_mul (fn_kappa p) (fn_mu p)) (f_div (f_mul n1 s) (f_nat m))) (k * mu + INR m * S / INR m)).
  { apply add_ap; [exact Hw| |exact A3| |lra].
    - apply (ap_weaken w Hw _ _ _ _ _ _ _ _ A1); try lra; [rewrite Rabs_mult, (Rabs_pos_eq k) by lra; apply Rmult_le_compat_l; lra|]. apply Rmult_le_compat_r; [nra|lra].
    - apply Rle_trans with (b2 (1 + 600)); [|apply b2_le; lia]. apply sum_le_b2; [apply (prod_le k M 300 300); lra|]. eapply Rle_trans; [exact HmM|apply b2_le; lia]. }
  destruct (kappa_close n1 Fn Vn) as [Fkp Ekp].
  assert (Hkm : 0 < k + INR m) by lra.
  assert (A5 : ap w (0 + 8 + 3 + 6 + 2 + 6) ((k * M + INR m * M) / (k + INR m)) ((k * M + M) / (k + INR m))
    (f_div (f_add (f_mul (fn_kappa p) (fn_mu p)) (f_div (f_mul n1 s) (f_nat m))) (f_add (fn_kappa p) n1)) ((k * mu + INR m * S / INR m) / (k + INR m))).
  { eapply div_ap; eauto; try lra.
    - apply tiny. apply Rmult_le_reg_r with (k + INR m); [lra|]. unfold Rdiv. rewrite (Rmult_assoc (k * M + M)), Rinv_l, Rmult_1_r by lra. change (b2 20) with 1048576 in P2. nra.
    - replace ((k * M + INR m * M) / (k + INR m)) with M by (field; lra). eapply Rle_trans; [apply HM|apply b2_le; lia]. }
  replace ((k * M + INR m * M) / (k + INR m)) with M in A5 by (field; lra).
  destruct A5 as (F & X & D & _).
  assert (Eex : ng_mu exact = (k * mu + INR m * S / INR m) / (k + INR m)).
  { unfold exact, reg_post_internal, ng_val. cbn [ng_mu ng_kappa]. rewrite Rmult_1_r. reflexivity. }
  rewrite Eex. split; [exact F|]. split; [exact X|]. eapply Rle_trans; [exact D|]. replace (0 + 8 + 3 + 6 + 2 + 6) with 25 by ring.
  apply Rmult_le_compat_l; [nra|]. apply Rmult_le_reg_r with (k + INR m); [lra|]. unfold Rdiv. rewrite (Rmult_assoc (k * M + M)), Rinv_l, Rmult_1_r by lra. nra.
Qed.
Lemma S_bound : Rabs S <= INR m * M.
Proof. apply Hs. Qed.
Lemma Q_bound : Rabs Q <= INR m * (M * M).
Proof. apply Hq. Qed.

Lemma beta_close : is_finite (fn_beta post) = true /\ b0 <= ng_beta exact <= b2 1000 /\ Rabs (B2R (fn_beta post) - ng_beta exact) <= 52 * w * (b0 + (1 + 2 * k) * (M * M)).
Proof.
  destruct Hp as (Fmu & Fk & _ & Fb & Hmu & Hk & _ & Hb). destruct (um_w m Hm) as [[P1 P2] Hum]. pose proof w_ok as Hw. pose proof upos as Hu.
  destruct nat_one as [Fn Vn]. destruct nat_exact as [Fm Vm]. destruct half_one as [Fh Vh]. destruct half_ok as [Fh0 Vh0].
  pose proof (b2_pos (-300)) as B3. pose proof (b2_pos 300) as B4. pose proof inv_m as Him. pose proof S_bound as HS. pose proof Q_bound as HQ.
  unfold post, freg_post_internal. cbn [fn_mu fn_kappa fn_alpha fn_beta]. set (n1 := f_mul (f_nat m) f_one) in *. set (h1 := f_mul f_half f_one) in *.
  assert (HM2 : 1 <= M * M <= b2 600) by (split; [nra|apply (prod_le M M 300 300); lra]).
  assert (HmM : INR m * M <= b2 320) by (apply (prod_le (INR m) M 20 300); lra).
  assert (HmM2 : INR m * (M * M) <= b2 620) by (apply (prod_le (INR m) (M * M) 20 600); lra).
  assert (HmM3 : INR m * M * (INR m * M) <= b2 640) by (apply (prod_le (INR m * M) (INR m * M) 320 320); split; try lra; nra).
  assert (L300 : b2 (-1000) <= b2 (-300)) by (apply b2_le; lia). assert (L301 : 2 * b2 (-1000) <= b2 (-300)) by (change 2 with (b2 1); rewrite <- bpow_plus; apply b2_le; lia).
  assert (EM : INR m * M * (INR m * M) / INR m = INR m * (M * M)) by (field; lra).
  assert (EM' : INR m * M * M / INR m = M * M) by (field; lra).
  (* square of the sum over n *)
  assert (A1 : ap w (8 + 8 + 3) (INR m * M * (INR m * M)) (INR m * M * M) (f_sq s) (S * S)).
  { unfold f_sq. eapply mul_ap; eauto; try lra.
    - nra.
    - apply tiny. nra.
    - eapply Rle_trans; [exact HmM3|apply b2_le; lia]. }
  assert (A2 : ap w (8 + 8 + 3 + 6) (INR m * (M * M)) (M * M) (f_div (f_sq s) (f_nat m)) (S * S / INR m)).
  { rewrite <- EM, <- EM'. eapply div_ap; eauto; try lra.
    - rewrite Vm, Rminus_eq_0, Rabs_R0. nra.
    - rewrite EM'. apply tiny. lra.
    - rewrite EM. eapply Rle_trans; [exact HmM2|apply b2_le; lia]. }
  assert (HSS : 0 <= S * S / INR m). { apply Rmult_le_pos; [nra|lra]. }
  replace (S ^ 2 / INR m) with (S * S / INR m) in HSQ by (field; lra).
  apply abs_bnd in HQ.
  assert (A3 : ap w (8 + 8 + 3 + 6 + 2) (INR m * (M * M) + INR m * (M * M)) (M * M + M * M) (f_sub q (f_div (f_sq s) (f_nat m))) (Q - S * S / INR m)).
  { apply sub_ap; [exact Hw| |exact A2| |lra].
    - apply (ap_weaken w Hw _ _ _ _ _ _ _ _ Hq); try lra; [apply Rabs_le; lra|split; [lra|nra]|nra].
    - apply Rle_trans with (b2 (1 + 620)); [apply sum_le_b2; lra|apply b2_le; lia]. }
  assert (Ah : ap w 0 (/ 2) (/ (2 * INR m)) h1 (/ 2)).
  { assert (Hi : / (2 * INR m) = / 2 * / INR m) by (field; lra). apply ap_exact; auto; [rewrite Rabs_pos_eq; lra| |].
    - rewrite Hi. apply Rmult_le_reg_r with (INR m); [lra|]. replace (w * (/ 2 * / INR m) * INR m) with (w * / 2) by (field; lra). lra.
    - rewrite Hi. split; [apply tiny; lra|lra]. }
  assert (A4 : ap w (0 + (8 + 8 + 3 + 6 + 2) + 3) (/ 2 * (INR m * (M * M) + INR m * (M * M))) (M * M) (f_mul h1 (f_sub q (f_div (f_sq s) (f_nat m)))) (/ 2 * (Q - S * S / INR m))).
  { eapply mul_ap; eauto; try lra.
    - right. field. lra.
    - nra.
    - apply tiny. lra.
    - apply Rle_trans with (b2 620); [lra|apply b2_le; lia]. }
  replace (/ 2 * (INR m * (M * M) + INR m * (M * M))) with (INR m * (M * M)) in A4 by lra.
  assert (Ab : ap w 0 b0 b0 (fn_beta p) b0).
  { apply ap_exact; auto; [rewrite Rabs_pos_eq; lra|apply Rmult_le_compat_r; lra|lra]. }
  assert (A5 : ap w (0 + (8 + 8 + 3 + 6 + 2) + 3 + 2) (b0 + INR m * (M * M)) (b0 + M * M) (f_add (fn_beta p) (f_mul h1 (f_sub q (f_div (f_sq s) (f_nat m))))) (b0 + / 2 * (Q - S * S / INR m))).
  { apply add_ap; [exact Hw| |exact A4| |lra].
    - apply (ap_weaken w Hw _ _ _ _ _ _ _ _ Ab); try lra; [rewrite Rabs_pos_eq; lra|apply Rmult_le_compat_r; lra].
    - apply Rle_trans with (b2 (1 + 620)); [|apply b2_le; lia]. apply sum_le_b2; [|lra]. eapply Rle_trans; [apply Hb|apply b2_le; lia]. }
  (* the distance between the sample mean and mu *)
  assert (EmM : INR m * M / INR m = M) by (field; lra).
  assert (Amean : ap w (8 + 6) (INR m * M / INR m) (M / INR m) (f_div s (f_nat m)) (S / INR m)).
  { eapply div_ap; eauto; try lra.
    - rewrite Vm, Rminus_eq_0, Rabs_R0. nra.
    - apply tiny. unfold Rdiv. nra.
    - rewrite EmM. eapply Rle_trans; [apply HM|apply b2_le; lia]. }
  rewrite EmM in Amean.
  assert (Amean' : ap w (8 + 6) M M (f_div s (f_nat m)) (S / INR m)).
  { apply (rescale _ _ _ _ _ _ _ _ Amean); try lra; [unfold Rdiv; nra|apply Amean|split; [apply tiny|]; lra|apply Rmult_le_compat_r; lra]. }
  assert (Amu : ap w (8 + 6) M M (fn_mu p) mu).
  { assert (Amu0 : ap w 0 M M (fn_mu p) mu) by (apply ap_exact; auto; [apply Rmult_le_compat_r; lra|split; [apply tiny|]; lra]).
    apply (ap_weaken w Hw _ _ _ _ _ _ _ _ Amu0); try lra. apply Rmult_le_compat_r; lra. }
  assert (A6 : ap w (8 + 6 + 2) (M + M) (M + M) (f_sub (f_div s (f_nat m)) (fn_mu p)) (S / INR m - mu)).
  { apply sub_ap; auto; try lra. apply Rle_trans with (b2 (1 + 300)); [apply sum_le_b2; lra|apply b2_le; lia]. }
  assert (A7 : ap w (8 + 6 + 2 + (8 + 6 + 2) + 3) ((M + M) * (M + M)) ((M + M) * (M + M)) (f_sq (f_sub (f_div s (f_nat m)) (fn_mu p))) ((S / INR m - mu) * (S / INR m - mu))).
  { unfold f_sq. eapply mul_ap; eauto; try lra.
    - apply tiny. nra.
    - apply Rle_trans with (b2 602); [|apply b2_le; lia]. apply Rle_trans with (b2 2 * b2 600); [change (b2 2) with 4; lra|rewrite <- bpow_plus; apply b2_le; lia]. }
  assert (Ak : ap w 0 k k (fn_kappa p) k).
  { apply ap_exact; auto; [rewrite Rabs_pos_eq; lra|apply Rmult_le_compat_r; lra|lra]. }
  assert (Ahf : ap w 0 (/ 2) (/ 2) f_half (/ 2)).
  { apply ap_exact; auto; [rewrite Rabs_pos_eq; lra|apply Rmult_le_compat_r; lra|split; [apply tiny|]; lra]. }
  assert (A8 : ap w (0 + 0 + 3) (/ 2 * k) (/ 2 * k) (f_mul f_half (fn_kappa p)) (/ 2 * k)).
  { eapply mul_ap; eauto; try lra. apply Rle_trans with (b2 300); [lra|apply b2_le; lia]. }
  assert (An : ap w 0 (INR m) (INR m) n1 (INR m)).
  { apply ap_exact; auto; [rewrite Rabs_pos_eq; lra|apply Rmult_le_compat_r; lra|split; [apply tiny|]; lra]. }
  assert (Hkm0 : k <= k * INR m) by nra.
  assert (Hkm : k * INR m <= b2 320) by (apply (prod_le k (INR m) 300 20); lra).
  assert (A9 : ap w (0 + 0 + 3 + 0 + 3) (/ 2 * k * INR m) (/ 2 * k * INR m) (f_mul (f_mul f_half (fn_kappa p)) n1) (/ 2 * k * INR m)).
  { eapply mul_ap; eauto; try lra. apply Rle_trans with (b2 320); [lra|apply b2_le; lia]. }
  set (D := (M + M) * (M + M)) in *. assert (HD : 4 <= D <= b2 602).
  { unfold D. split; [nra|]. apply Rle_trans with (b2 2 * b2 600); [change (b2 2) with 4; lra|rewrite <- bpow_plus; apply b2_le; lia]. }
  assert (Hkd : / 2 * k * INR m * D <= b2 922) by (apply (prod_le (/ 2 * k * INR m) D 320 602); lra).
  assert (Hkd0 : 2 * k <= / 2 * k * INR m * D).
  { replace (2 * k) with (/ 2 * k * 4) by lra. apply Rmult_le_compat; lra. }
  assert (A10 : ap w (0 + 0 + 3 + 0 + 3 + (8 + 6 + 2 + (8 + 6 + 2) + 3) + 3) (/ 2 * k * INR m * D) (/ 2 * k * INR m * D)
     (f_mul (f_mul (f_mul f_half (fn_kappa p)) n1) (f_sq (f_sub (f_div s (f_nat m)) (fn_mu p)))) (/ 2 * k * INR m * ((S / INR m - mu) * (S / INR m - mu)))).
  { eapply mul_ap; eauto; try lra. eapply Rle_trans; [exact Hkd|apply b2_le; lia]. }
  destruct (kappa_close (f_nat m) Fm Vm) as [Fkp Ekp].
  assert (Hkp : 0 < k + INR m) by lra.
  assert (Hfrac : b2 (-1000) <= / 2 * k * INR m * D / (k + INR m) <= / 2 * k * D).
  { split.
    - apply Rmult_le_reg_r with (k + INR m); [lra|]. unfold Rdiv. rewrite (Rmult_assoc (/ 2 * k * INR m * D)), Rinv_l, Rmult_1_r by lra.
      assert (k <= INR m \/ INR m <= k) as [G|G] by lra.
      + apply Rle_trans with (b2 (-1000) * (2 * INR m)); [apply Rmult_le_compat_l; [left; apply b2_pos|lra]|]. nra.
      + apply Rle_trans with (b2 (-1000) * (2 * k)); [apply Rmult_le_compat_l; [left; apply b2_pos|lra]|].
        assert (b2 (-1000) <= 1) by (apply (b2_le (-1000) 0); lia). assert (b2 (-1000) * (2 * k) <= 1 * (2 * k)) by (apply Rmult_le_compat_r; lra). lra.
    - apply Rmult_le_reg_r with (k + INR m); [lra|]. unfold Rdiv. rewrite (Rmult_assoc (/ 2 * k * INR m * D)), Rinv_l, Rmult_1_r by lra. nra. }
  assert (HkD : / 2 * k * D <= b2 902) by (apply (prod_le (/ 2 * k) D 300 602); lra).
  assert (A11 : ap w (0 + 0 + 3 + 0 + 3 + (8 + 6 + 2 + (8 + 6 + 2) + 3) + 3 + 6) (/ 2 * k * INR m * D / (k + INR m)) (/ 2 * k * INR m * D / (k + INR m))
     (f_div (f_mul (f_mul (f_mul f_half (fn_kappa p)) n1) (f_sq (f_sub (f_div s (f_nat m)) (fn_mu p)))) (f_add (fn_kappa p) (f_nat m)))
     (/ 2 * k * INR m * ((S / INR m - mu) * (S / INR m - mu)) / (k + INR m))).
  { eapply div_ap; eauto; try lra. apply Rle_trans with (b2 902); [lra|apply b2_le; lia]. }
  set (T := / 2 * k * INR m * ((S / INR m - mu) * (S / INR m - mu)) / (k + INR m)) in *.
  assert (A12 : ap w 50 (/ 2 * k * D) (/ 2 * k * D) (f_div (f_mul (f_mul (f_mul f_half (fn_kappa p)) n1) (f_sq (f_sub (f_div s (f_nat m)) (fn_mu p)))) (f_add (fn_kappa p) (f_nat m))) T).
  { apply (ap_weaken w Hw _ _ _ _ _ _ _ _ A11); try lra; [destruct A11 as (_ & X & _); lra|]. apply Rmult_le_compat_r; [nra|lra]. }
  assert (A13 : ap w (50 + 2) (b0 + INR m * (M * M) + / 2 * k * D) (b0 + M * M + / 2 * k * D)
     (f_add (f_add (fn_beta p) (f_mul h1 (f_sub q (f_div (f_sq s) (f_nat m))))) (f_div (f_mul (f_mul (f_mul f_half (fn_kappa p)) n1) (f_sq (f_sub (f_div s (f_nat m)) (fn_mu p)))) (f_add (fn_kappa p) (f_nat m))))
     (b0 + / 2 * (Q - S * S / INR m) + T)).
  { assert (HMm : 1 * (M * M) <= INR m * (M * M)) by (apply Rmult_le_compat_r; lra). apply add_ap; [exact Hw| |exact A12| |lra].
    - apply (ap_weaken w Hw _ _ _ _ _ _ _ _ A5); try lra; apply A5.
    - apply Rle_trans with (b2 (1 + 902)); [|apply b2_le; lia]. apply sum_le_b2; [|lra].
      apply Rle_trans with (b2 (1 + 620)); [|apply b2_le; lia]. apply sum_le_b2; [|lra]. eapply Rle_trans; [apply Hb|apply b2_le; lia]. }
  assert (HT : 0 <= T). {  unfold T. apply Rmult_le_pos; [|left; apply Rinv_0_lt_compat; lra]. apply Rmult_le_pos; [lra|apply Rle_0_sqr]. }
  assert (Eex : ng_beta exact = b0 + / 2 * (Q - S * S / INR m) + T).
  { unfold exact, reg_post_internal, ng_val, T. cbn [ng_beta ng_kappa ng_mu]. rewrite !Rmult_1_r. field. lra. }
  rewrite Eex. split; [apply A13|]. destruct A13 as (_ & X & E13 & _). split.
  - split; [lra|]. apply abs_bnd in X. apply Rle_trans with (b2 (1 + 902)); [|apply b2_le; lia].
    assert (b0 + INR m * (M * M) + / 2 * k * D <= b2 (1 + 902)); [|lra]. apply sum_le_b2; [|lra].
    apply Rle_trans with (b2 (1 + 620)); [|apply b2_le; lia]. apply sum_le_b2; [|lra]. eapply Rle_trans; [apply Hb|apply b2_le; lia].
  - eapply Rle_trans; [exact E13|]. replace (50 + 2) with 52 by ring. right. unfold D. field.
Qed.

Lemma kappa_alpha_close :
  is_finite (fn_kappa post) = true /\ Rabs (B2R (fn_kappa post) - ng_kappa exact) <= u53 * ng_kappa exact /\
  is_finite (fn_alpha post) = true /\ Rabs (B2R (fn_alpha post) - ng_alpha exact) <= u53 * ng_alpha exact /\
  B2R (fn_alpha post) = RN64 (ng_alpha exact).
Proof.
  destruct Hp as (_ & Fk & Fa & _ & _ & Hk & Ha & _). destruct (um_w m Hm) as [[P1 P2] Hum]. pose proof (b2_pos (-300)) as B3.
  destruct nat_one as [Fn Vn]. destruct half_ok as [Fh Vh]. destruct (kappa_close _ Fn Vn) as [F1 E1].
  unfold post, exact, freg_post_internal, reg_post_internal, ng_val. cbn [fn_kappa fn_alpha ng_kappa ng_alpha]. rewrite Rmult_1_r.
  split; [exact F1|]. split; [exact E1|].
  destruct (mul_ok f_half (f_mul (f_nat m) f_one) Fh Fn) as [F2 V2].
  { rewrite Vh, Vn, Rabs_pos_eq by lra. apply Rle_trans with (b2 20); [lra|apply b2_le; lia]. }
  rewrite Vh, Vn in V2.
  assert (V3 : B2R (f_mul f_half (f_mul (f_nat m) f_one)) = / 2 * INR m).
  { rewrite V2. apply RN64_fmt. rewrite Rmult_comm. change (/ 2) with (bpow radix2 (-1)). rewrite INR_IZR_INZ. apply fmt64_scaled; [|lia].
    rewrite INR_IZR_INZ in P2. change (b2 20) with (IZR (2 ^ 20)) in P2. apply le_IZR in P2. lia. }
  rewrite <- V3.
  destruct (add_ok (fn_alpha p) _ Fa F2) as [F4 V4].
  { rewrite V3, Rabs_pos_eq by lra. pose proof (b2_le 20 30 ltac:(lia)). apply Rle_trans with (b2 (1 + 30)); [apply sum_le_b2; lra|apply b2_le; lia]. }
  split; [exact F4|]. split; [|exact V4]. rewrite V4. rewrite <- (Rabs_pos_eq (B2R (fn_alpha p) + _)) at 3 by (rewrite V3; lra). apply add_rel; apply fmt_B2R.
Qed.
End Update.
