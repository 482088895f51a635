(** * FloatNG: float64 regression with integer targets never takes the logarithm of a negative number. *)
From Coq Require Import Reals Lra Permutation Psatz.
From Flocq Require Import Core BinarySingleNaN.
From Verif Require Import Prelude Tree Perp FloatFeat FloatReg FloatSum.
Local Open Scope R_scope.

Notation b2 := (bpow radix2).

(** A prior whose numbers are in range and whose [beta] is not lost against a sum of squares [T]. *)
Definition prior_range (prior : fng) (T : Z) : Prop :=
  is_finite (fn_mu prior) = true /\ is_finite (fn_kappa prior) = true /\ is_finite (fn_alpha prior) = true /\ is_finite (fn_beta prior) = true /\
  Rabs (B2R (fn_mu prior)) <= b2 400 /\ b2 (-900) <= B2R (fn_kappa prior) <= b2 100 /\
  IZR T * b2 (-52) < B2R (fn_beta prior) <= b2 1000.

Lemma b2_le a b : (a <= b)%Z -> b2 a <= b2 b. Proof. apply bpow_le. Qed.
Lemma b2_pos a : 0 < b2 a. Proof. apply bpow_gt_0. Qed.
Lemma abs_mul_le x y a b : Rabs x <= b2 a -> Rabs y <= b2 b -> Rabs (x * y) <= b2 (a + b).
Proof. intros H1 H2. rewrite Rabs_mult, bpow_plus. apply Rmult_le_compat; auto using Rabs_pos. Qed.
Lemma abs_add_le x y a : Rabs x <= b2 a -> Rabs y <= b2 a -> Rabs (x + y) <= b2 (a + 1).
Proof. intros H1 H2. eapply Rle_trans; [apply Rabs_triang|]. rewrite bpow_plus. replace (b2 1) with 2 by (simpl; lra). lra. Qed.
Lemma abs_sub_le x y a : Rabs x <= b2 a -> Rabs y <= b2 a -> Rabs (x - y) <= b2 (a + 1).
Proof. intros H1 H2. apply abs_add_le; auto. rewrite Rabs_Ropp. exact H2. Qed.
Lemma abs_weak x a b : (a <= b)%Z -> Rabs x <= b2 a -> Rabs x <= b2 b.
Proof. intros H1 H2. eapply Rle_trans; [exact H2|apply b2_le, H1]. Qed.
Lemma abs_div_le x y a : Rabs x <= b2 a -> 1 <= y -> Rabs (x / y) <= b2 a.
Proof.
  intros H1 H2. unfold Rdiv. rewrite Rabs_mult, (Rabs_pos_eq (/ y)) by (left; apply Rinv_0_lt_compat; lra).
  assert (0 < / y <= 1) as [H3 H4]. { split; [apply Rinv_0_lt_compat; lra|]. rewrite <- Rinv_1. apply Rinv_le_contravar; lra. }
  pose proof (Rabs_pos x). nra.
Qed.
Lemma abs_int z : (Z.abs z < 2 ^ 53)%Z -> Rabs (IZR z) <= b2 53.
Proof. intros H. rewrite <- abs_IZR. change (b2 53) with (IZR (2 ^ 53)). apply IZR_le. lia. Qed.

(** The difference of the sum of squares and the squared sum over [n] cannot fall far below zero. *)
Lemma spread_bound s q n S T : is_int s S -> is_int q T -> (0 < n)%nat -> (Z.of_nat n < 2 ^ 53)%Z -> (S * S <= Z.of_nat n * T)%Z ->
  (Z.abs S < 2 ^ 53)%Z -> (0 <= T < 2 ^ 53)%Z ->
  let d := f_sub q (f_div (f_sq s) (f_nat n)) in
  is_finite d = true /\ - (IZR T * b2 (-51)) <= B2R d <= b2 54.
Proof.
  intros [Fs Es] [Fq Eq] Hn Hn' Hst HS HT d.
  destruct (int_nat n Hn') as [Fn En].
  assert (Hn1 : 1 <= IZR (Z.of_nat n)) by (apply IZR_le; lia).
  pose proof (abs_int S HS) as AS. assert (AT : Rabs (IZR T) <= b2 53) by (apply abs_int; lia).
  assert (T0 : 0 <= IZR T) by (apply IZR_le; lia).
  destruct (mul_ok s s Fs Fs) as [F1 E1]. { rewrite Es. eapply abs_weak; [|apply abs_mul_le; eauto]. lia. }
  fold (f_sq s) in F1, E1. rewrite Es in E1.
  assert (A1 : Rabs (B2R (f_sq s)) <= b2 106). { rewrite E1. apply RN64_abs_le; [lia|]. apply (abs_mul_le _ _ 53 53); auto. }
  destruct (div_ok (f_sq s) (f_nat n) F1) as [F2 E2]. { rewrite En. lra. } { rewrite En. eapply abs_weak; [|apply abs_div_le; eauto]. lia. }
  rewrite En in E2.
  assert (Q0 : 0 <= B2R (f_sq s)). { rewrite E1. apply RN64_nonneg. nra. }
  assert (Q1 : 0 <= B2R (f_sq s) / IZR (Z.of_nat n)). { apply Rmult_le_pos; [exact Q0|]. left. apply Rinv_0_lt_compat. lra. }
  assert (Q2 : 0 <= B2R (f_div (f_sq s) (f_nat n)) <= IZR T + IZR T * b2 (-51)).
  { rewrite E2. split; [apply RN64_nonneg, Q1|].
    destruct (Z.eq_dec S 0) as [->|HS0].
    { replace (B2R (f_sq s)) with 0 by (rewrite E1, Rmult_0_l, RN64_0; reflexivity). unfold Rdiv. rewrite Rmult_0_l, RN64_0.
      pose proof (b2_pos (-51)). nra. }
    assert (HSS : 1 <= IZR S * IZR S) by (rewrite <- mult_IZR; apply IZR_le; nia).
    assert (R1 : Rabs (B2R (f_sq s) - IZR S * IZR S) <= b2 (-53) * (IZR S * IZR S)).
    { rewrite E1. pose proof (RN64_rel (IZR S * IZR S)) as H. rewrite (Rabs_pos_eq (IZR S * IZR S)) in H by lra. apply H.
      apply Rle_trans with (b2 0); [apply b2_le; lia|simpl; lra]. }
    assert (e1 : b2 (-53) = / 9007199254740992) by reflexivity. assert (e2 : b2 (-51) = / 2251799813685248) by reflexivity.
    apply Rabs_le_inv in R1.
    assert (R2 : IZR S * IZR S <= IZR (Z.of_nat n) * IZR T) by (rewrite <- !mult_IZR; apply IZR_le, Hst).
    set (N := IZR (Z.of_nat n)) in *. set (X := B2R (f_sq s)) in *.
    assert (X1 : / 2 <= X) by (rewrite e1 in R1; nra).
    assert (N53 : N <= b2 53) by (unfold N; change (b2 53) with (IZR (2 ^ 53)); apply IZR_le; lia).
    assert (iN : / b2 53 <= / N) by (apply Rinv_le_contravar; lra).
    assert (XN : X / N <= IZR T * (1 + b2 (-53))).
    { apply Rmult_le_reg_r with N; [lra|]. unfold Rdiv. rewrite Rmult_assoc, Rinv_l by lra. rewrite Rmult_1_r. rewrite e1 in *. nra. }
    pose proof (RN64_rel (X / N)) as R3. rewrite (Rabs_pos_eq (X / N)) in R3 by exact Q1.
    assert (R4 : b2 (-1022) <= X / N).
    { apply Rle_trans with (b2 (-54)); [apply b2_le; lia|]. unfold Rdiv. change (b2 (-54)) with (b2 (-1 + -53)). rewrite bpow_plus.
      apply Rmult_le_compat; [left; apply b2_pos|left; apply b2_pos|simpl; lra|]. change (b2 (-53)) with (/ b2 53). exact iN. }
    specialize (R3 R4). apply Rabs_le_inv in R3. rewrite e1, e2 in *. nra. }
  destruct (sub_ok q (f_div (f_sq s) (f_nat n)) Fq F2) as [F3 E3].
  { rewrite Eq. eapply abs_weak; [|apply (abs_sub_le _ _ 106)]; [lia|eapply abs_weak; [|exact AT]; lia|].
    rewrite E2. apply RN64_abs_le; [lia|]. apply abs_div_le; auto. }
  fold d in F3, E3. rewrite Eq in E3. split; [exact F3|]. rewrite E3. split.
  - rewrite <- (RN64_fmt (- (IZR T * b2 (-51)))).
    + apply RN64_le. lra.
    + apply generic_format_opp. apply fmt64_scaled; lia.
  - rewrite <- (RN64_fmt (b2 54)) by (apply fmt64_bpow; lia). apply RN64_le.
    apply Rabs_le_inv in AT. pose proof (b2_le 53 54 ltac:(lia)). lra.
Qed.

Lemma post_positive prior n s q S T : is_int s S -> is_int q T -> (0 < n)%nat -> (Z.of_nat n < 2 ^ 53)%Z -> (S * S <= Z.of_nat n * T)%Z ->
  (Z.abs S < 2 ^ 53)%Z -> (0 <= T < 2 ^ 53)%Z -> prior_range prior T ->
  let post := freg_post_internal prior n s q f_one in
  is_finite (fn_beta post) = true /\ 0 < B2R (fn_beta post) /\ is_finite (fn_kappa post) = true /\ B2R (fn_kappa prior) <= B2R (fn_kappa post) <= b2 101.
Proof.
  intros Hs Hq Hn Hn' Hst HS HT (Fm & Fk & Fa & Fb & Am & Ak & Ab) post.
  destruct (spread_bound s q n S T Hs Hq Hn Hn' Hst HS HT) as [Fd Ed].
  destruct Hs as [Fs Es]. destruct (int_nat n Hn') as [Fn En]. destruct one_ok as [F1 E1]. destruct half_ok as [Fh Eh].
  assert (Hn1 : 1 <= IZR (Z.of_nat n)) by (apply IZR_le; lia).
  assert (An : Rabs (IZR (Z.of_nat n)) <= b2 53) by (apply abs_int; lia).
  pose proof (abs_int S HS) as AS. assert (T0 : 0 <= IZR T) by (apply IZR_le; lia).
  assert (T53 : IZR T <= b2 53) by (change (b2 53) with (IZR (2 ^ 53)); apply IZR_le; lia).
  pose proof (b2_pos (-900)) as P900.
  unfold post, freg_post_internal. cbv zeta. cbn [fn_beta fn_kappa].
  (* n * delta *)
  destruct (mul_ok (f_nat n) f_one Fn F1) as [Fnd End]. { rewrite En, E1, Rmult_1_r. eapply abs_weak; [|exact An]. lia. }
  rewrite En, E1, Rmult_1_r in End. rewrite RN64_fmt in End by (apply fmt64_int; lia).
  (* kappa + n *)
  assert (Akn : forall x : float64, B2R x = IZR (Z.of_nat n) -> is_finite x = true ->
    is_finite (f_add (fn_kappa prior) x) = true /\ B2R (f_add (fn_kappa prior) x) = RN64 (B2R (fn_kappa prior) + IZR (Z.of_nat n))).
  { intros x Ex Fx. rewrite <- Ex. apply add_ok; auto. rewrite Ex. eapply abs_weak; [|apply (abs_add_le _ _ 100)]; [lia| |].
    - rewrite Rabs_pos_eq by lra. lra.
    - eapply abs_weak; [|exact An]. lia. }
  destruct (Akn _ En Fn) as [Fkn Ekn]. destruct (Akn _ End Fnd) as [Fkp Ekp].
  assert (Bkn : B2R (fn_kappa prior) <= RN64 (B2R (fn_kappa prior) + IZR (Z.of_nat n)) <= b2 101 /\ 1 <= RN64 (B2R (fn_kappa prior) + IZR (Z.of_nat n))).
  { split; [split|].
    - rewrite <- (RN64_fmt (B2R (fn_kappa prior))) at 1 by apply fmt_B2R. apply RN64_le. lra.
    - rewrite <- (RN64_fmt (b2 101)) by (apply fmt64_bpow; lia). apply RN64_le. change (b2 101) with (b2 (100 + 1)). rewrite bpow_plus.
      replace (b2 1) with 2 by (simpl; lra). apply Rabs_le_inv in An. pose proof (b2_le 53 100 ltac:(lia)). lra.
    - rewrite <- (RN64_fmt 1) at 1 by (apply (fmt64_int 1); lia). apply RN64_le. lra. }
  (* half * delta *)
  destruct (mul_ok f_half f_one Fh F1) as [Fhd Ehd]. { rewrite Eh, E1, Rmult_1_r. rewrite Rabs_pos_eq by lra. apply Rle_trans with (b2 0); [simpl; lra|apply b2_le; lia]. }
  rewrite Eh, E1, Rmult_1_r in Ehd. rewrite RN64_fmt in Ehd by (change (/ 2) with (b2 (-1)); apply fmt64_bpow; lia).
  (* half * spread *)
  set (d := f_sub q (f_div (f_sq s) (f_nat n))) in *.
  assert (Ad : Rabs (B2R d) <= b2 54).
  { apply Rabs_le. split; [|lra]. apply Rle_trans with (- (b2 53 * b2 (-51))).
    - rewrite <- bpow_plus. apply Ropp_le_contravar, b2_le. lia.
    - pose proof (b2_pos (-51)). nra. }
  destruct (mul_ok (f_mul f_half f_one) d Fhd Fd) as [Fhs Ehs]. { rewrite Ehd. eapply abs_weak; [|apply (abs_mul_le _ _ 0 54)]; [lia| |exact Ad]. rewrite Rabs_pos_eq by lra. simpl. lra. }
  rewrite Ehd in Ehs.
  assert (Bhs : - (IZR T * b2 (-52)) <= B2R (f_mul (f_mul f_half f_one) d) <= b2 54).
  { rewrite Ehs. split.
    - rewrite <- (RN64_fmt (- (IZR T * b2 (-52)))) by (apply generic_format_opp, fmt64_scaled; lia). apply RN64_le.
      replace (b2 (-51)) with (2 * b2 (-52)) in Ed by (change (b2 (-51)) with (b2 (1 + -52)); rewrite bpow_plus; simpl; lra). lra.
    - rewrite <- (RN64_fmt (b2 54)) by (apply fmt64_bpow; lia). apply RN64_le. pose proof (b2_pos 54). lra. }
  (* beta + half * spread *)
  destruct (add_ok (fn_beta prior) (f_mul (f_mul f_half f_one) d) Fb Fhs) as [Fbs Ebs].
  { eapply abs_weak; [|apply (abs_add_le _ _ 1000)]; [lia| |].
    - pose proof (b2_pos (-52)). rewrite Rabs_pos_eq; [lra|nra].
    - apply Rabs_le. pose proof (b2_le 54 1000 ltac:(lia)). split; [|lra].
      apply Rle_trans with (- (IZR T * b2 (-52))); [|lra]. lra. }
  assert (Pbs : 0 < B2R (f_add (fn_beta prior) (f_mul (f_mul f_half f_one) d)) <= b2 1001).
  { rewrite Ebs. split.
    - apply RN64_sum_pos; [apply fmt_B2R|apply fmt_B2R|]. lra.
    - rewrite <- (RN64_fmt (b2 1001)) by (apply fmt64_bpow; lia). apply RN64_le. change (b2 1001) with (b2 (1000 + 1)). rewrite bpow_plus.
      replace (b2 1) with 2 by (simpl; lra). pose proof (b2_le 54 1000 ltac:(lia)). lra. }
  (* the third term *)
  assert (Akap : Rabs (B2R (fn_kappa prior)) <= b2 100) by (rewrite Rabs_pos_eq; lra).
  destruct (mul_ok f_half (fn_kappa prior) Fh Fk) as [G1 H1]. { rewrite Eh. eapply abs_weak; [|apply (abs_mul_le _ _ 0 100)]; [lia| |exact Akap]. rewrite Rabs_pos_eq by lra. simpl. lra. }
  assert (I1 : Rabs (B2R (f_mul f_half (fn_kappa prior))) <= b2 100).
  { rewrite H1. apply RN64_abs_le; [lia|]. rewrite Eh. apply (abs_mul_le _ _ 0 100); [|exact Akap]. rewrite Rabs_pos_eq by lra. simpl. lra. }
  assert (J1 : 0 <= B2R (f_mul f_half (fn_kappa prior))) by (rewrite H1, Eh; apply RN64_nonneg; lra).
  destruct (mul_ok (f_mul f_half (fn_kappa prior)) (f_mul (f_nat n) f_one) G1 Fnd) as [G2 H2]. { rewrite End. eapply abs_weak; [|apply (abs_mul_le _ _ 100 53)]; [lia|exact I1|exact An]. }
  rewrite End in H2.
  set (k2 := f_mul (f_mul f_half (fn_kappa prior)) (f_mul (f_nat n) f_one)) in *.
  assert (I2 : Rabs (B2R k2) <= b2 153). { rewrite H2. apply RN64_abs_le; [lia|]. apply (abs_mul_le _ _ 100 53); auto. }
  assert (J2 : 0 <= B2R k2) by (rewrite H2; apply RN64_nonneg, Rmult_le_pos; lra).
  destruct (div_ok s (f_nat n) Fs) as [G3 H3]. { rewrite En. lra. } { rewrite En, Es. eapply abs_weak; [|apply abs_div_le; eauto]. lia. }
  rewrite En, Es in H3.
  assert (I3 : Rabs (B2R (f_div s (f_nat n))) <= b2 53). { rewrite H3. apply RN64_abs_le; [lia|]. apply abs_div_le; auto. }
  destruct (sub_ok (f_div s (f_nat n)) (fn_mu prior) G3 Fm) as [G4 H4]. { eapply abs_weak; [|apply (abs_sub_le _ _ 400)]; [lia| |exact Am]. eapply abs_weak; [|exact I3]. lia. }
  set (m := f_sub (f_div s (f_nat n)) (fn_mu prior)) in *.
  assert (I4 : Rabs (B2R m) <= b2 401). { rewrite H4. apply RN64_abs_le; [lia|]. apply (abs_sub_le _ _ 400); [|exact Am]. eapply abs_weak; [|exact I3]. lia. }
  destruct (mul_ok m m G4 G4) as [G5 H5]. { eapply abs_weak; [|apply (abs_mul_le _ _ 401 401)]; auto. lia. }
  fold (f_sq m) in G5, H5.
  assert (I5 : Rabs (B2R (f_sq m)) <= b2 802). { rewrite H5. apply RN64_abs_le; [lia|]. apply (abs_mul_le _ _ 401 401); auto. }
  assert (J5 : 0 <= B2R (f_sq m)) by (rewrite H5; apply RN64_nonneg; nra).
  destruct (mul_ok k2 (f_sq m) G2 G5) as [G6 H6]. { eapply abs_weak; [|apply (abs_mul_le _ _ 153 802)]; auto. lia. }
  assert (I6 : Rabs (B2R (f_mul k2 (f_sq m))) <= b2 955). { rewrite H6. apply RN64_abs_le; [lia|]. apply (abs_mul_le _ _ 153 802); auto. }
  assert (J6 : 0 <= B2R (f_mul k2 (f_sq m))) by (rewrite H6; apply RN64_nonneg, Rmult_le_pos; lra).
  set (kn := f_add (fn_kappa prior) (f_nat n)) in *.
  destruct (div_ok (f_mul k2 (f_sq m)) kn G6) as [G7 H7]. { rewrite Ekn. lra. } { rewrite Ekn. eapply abs_weak; [|apply abs_div_le; eauto]; [lia|]. lra. }
  assert (I7 : Rabs (B2R (f_div (f_mul k2 (f_sq m)) kn)) <= b2 955). { rewrite H7. apply RN64_abs_le; [lia|]. apply abs_div_le; auto. rewrite Ekn. lra. }
  assert (J7 : 0 <= B2R (f_div (f_mul k2 (f_sq m)) kn)).
  { rewrite H7. apply RN64_nonneg, Rmult_le_pos; [exact J6|]. left. apply Rinv_0_lt_compat. rewrite Ekn. lra. }
  set (b1 := f_add (fn_beta prior) (f_mul (f_mul f_half f_one) d)) in *. set (t3 := f_div (f_mul k2 (f_sq m)) kn) in *.
  destruct (add_ok b1 t3 Fbs G7) as [G8 H8]. { eapply abs_weak; [|apply (abs_add_le _ _ 1001)]; [lia| |]; [rewrite Rabs_pos_eq; lra|]. eapply abs_weak; [|exact I7]. lia. }
  split; [exact G8|]. split.
  - rewrite H8. apply RN64_sum_pos; [apply fmt_B2R|apply fmt_B2R|lra].
  - split; [exact Fkp|]. rewrite Ekp. tauto.
Qed.
