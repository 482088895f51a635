(** * PhiProofs: the loop never ends in exact arithmetic and always ends in float64. *)
From Coq Require Import Reals Lra Psatz.
From Flocq Require Import Core.
From Verif Require Import Prelude RealOps Phi.
Local Open Scope R_scope.

Lemma Reqb_spec a b : reflect (a = b) (Reqb a b).
Proof. unfold Reqb. destruct (Req_EM_T a b); constructor; auto. Qed.

(** ** Exact arithmetic *)
Lemma root_pow (n : nat) x : 0 < x -> Rpower x (1 / INR (n + 1)) ^ (n + 1) = x.
Proof.
  intros Hx. assert (0 < INR (n + 1)) by (apply lt_0_INR; lia).
  rewrite <- Rpower_pow by apply exp_pos. rewrite Rpower_mult. replace (1 / INR (n + 1) * INR (n + 1)) with 1 by (field; lra).
  apply Rpower_1. auto.
Qed.
Lemma pow_lt_inv k a b : 0 <= a -> 0 <= b -> a ^ k < b ^ k -> a < b.
Proof. intros Ha Hb H. destruct (Rlt_le_dec a b) as [|Hn]; auto. assert (b ^ k <= a ^ k) by (apply pow_incr; lra). lra. Qed.

Lemma exact_never n fuel x : 0 < x -> 1 + x < x ^ (n + 1) -> phi_loop (fun x => 1 + x) (pow_R n) fuel x = Err OutOfFuel.
Proof.
  revert x. induction fuel as [|fuel IH]; intros x Hx H; auto. cbn [phi_loop]. set (y := pow_R n (1 + x)).
  assert (Ey : y ^ (n + 1) = 1 + x) by (apply root_pow; lra).
  assert (Hy : 0 < y) by apply exp_pos.
  assert (Hlt : y < x) by (apply (pow_lt_inv (n + 1)); lra).
  destruct (Reqb_spec y x); [lra|]. apply IH; lra.
Qed.

(** ** float64 *)
Local Instance prec53 : Prec_gt_0 53 := eq_refl.
Lemma f64_le x y : x <= y -> f64 x <= f64 y.
Proof. apply round_le; auto with typeclass_instances. Qed.
Lemma f64_id x : is_f64 x -> f64 x = x.
Proof. apply round_generic; auto with typeclass_instances. Qed.
Lemma f64_is x : is_f64 (f64 x).
Proof. apply generic_format_round; auto with typeclass_instances. Qed.
Lemma f64_bpow e : (-1074 <= e)%Z -> is_f64 (bpow radix2 e).
Proof. intros H. apply generic_format_bpow. unfold FLT_exp. lia. Qed.
Lemma f64_2pow m e : (Z.abs m < 2 ^ 53)%Z -> (-1074 <= e)%Z -> is_f64 (IZR m * bpow radix2 e).
Proof.
  intros Hm He. apply (generic_format_FLT radix2 (-1074) 53). exists (Float radix2 m e); auto.
Qed.
Lemma f64_1 : is_f64 1. Proof. apply (f64_bpow 0). lia. Qed.
Lemma f64_2 : is_f64 2. Proof. apply (f64_bpow 1). lia. Qed.
Lemma f64_3 : is_f64 3. Proof. replace 3 with (IZR 3 * bpow radix2 0) by (simpl; lra). apply f64_2pow; lia. Qed.
Lemma f64_half : is_f64 (1 / 2). Proof. replace (1 / 2) with (bpow radix2 (-1)) by (simpl; lra). apply f64_bpow. lia. Qed.

(** Between 1 and 2 the floats are multiples of 2^-52. *)
Lemma f64_grid x : is_f64 x -> 1 <= x <= 2 -> exists m : Z, x = IZR m * bpow radix2 (-52).
Proof.
  intros Hf Hx. unfold is_f64, generic_format in Hf. set (e := cexp radix2 f64_exp x) in *.
  assert (He : (-52 <= e)%Z).
  { unfold e, cexp, FLT_exp. assert (0 < mag radix2 x)%Z; [|lia]. apply mag_gt_bpow. simpl. rewrite Rabs_pos_eq; lra. }
  exists (Ztrunc (scaled_mantissa radix2 f64_exp x) * 2 ^ (e + 52))%Z. rewrite Hf at 1. unfold F2R. cbn [Fnum Fexp].
  rewrite mult_IZR, Rmult_assoc. f_equal. rewrite (IZR_Zpower radix2) by lia. rewrite <- bpow_plus. f_equal. lia.
Qed.

Section Loop.
(** Any power function that does not decrease and stays between 1 and 2. *)
Variable pw : R -> R.
Hypothesis pw_f : forall x, 2 <= x <= 3 -> is_f64 x -> is_f64 (pw x).
Hypothesis pw_mono : forall x y, 2 <= x -> x <= y -> y <= 3 -> is_f64 x -> is_f64 y -> pw x <= pw y.
Hypothesis pw_range : forall x, 2 <= x <= 3 -> is_f64 x -> 1 <= pw x <= 2.

Lemma plus1_range x : 1 <= x <= 2 -> 2 <= plus1_f x <= 3.
Proof. intros H. unfold plus1_f. pose proof (f64_id 2 f64_2) as E2. pose proof (f64_id 3 f64_3) as E3.
  split; [rewrite <- E2|rewrite <- E3]; apply f64_le; lra. Qed.

Lemma phi_from x : is_f64 x -> 1 <= x <= 2 -> pw (plus1_f x) <= x ->
  exists fuel phi, phi_loop plus1_f pw fuel x = Ok phi /\ is_f64 phi /\ 1 <= phi <= x /\ pw (plus1_f phi) = phi.
Proof.
  assert (G : forall z, (0 <= z)%Z -> forall x m, is_f64 x -> 1 <= x <= 2 -> pw (plus1_f x) <= x -> x = IZR m * bpow radix2 (-52) ->
    (m - 2 ^ 52 < z)%Z -> exists fuel phi, phi_loop plus1_f pw fuel x = Ok phi /\ is_f64 phi /\ 1 <= phi <= x /\ pw (plus1_f phi) = phi).
  { assert (H52 : IZR (2 ^ 52) * bpow radix2 (-52) = 1) by (change (2 ^ 52)%Z with (radix2 ^ 52)%Z; rewrite (IZR_Zpower radix2 52), <- bpow_plus by lia; reflexivity).
    assert (Hb : 0 < bpow radix2 (-52)) by apply bpow_gt_0.
    intros z Hz. pattern z. apply natlike_ind; auto.
    - intros x0 m _ Hx _ E Hm. exfalso. assert (IZR m < IZR (2 ^ 52)) by (apply IZR_lt; lia). nra.
    - clear z Hz. intros z Hz IH x0 m Hf Hx Hle E Hm. pose proof (plus1_range _ Hx) as Hp. pose proof (f64_is (1 + x0)) as Hpf. fold (plus1_f x0) in Hpf.
      set (y := pw (plus1_f x0)) in *. assert (Hy : 1 <= y <= 2) by (apply pw_range; auto). assert (Hyf : is_f64 y) by (apply pw_f; auto).
      destruct (Req_EM_T y x0) as [Ey|Ny].
      + exists 1%nat, y. cbn [phi_loop]. fold y. destruct (Reqb_spec y x0); [|tauto]. split; auto. split; auto. split; [lra|]. rewrite Ey at 1. auto.
      + destruct (f64_grid y Hyf Hy) as [m' E'].
        assert (IZR m' < IZR m) by (apply (Rmult_lt_reg_r (bpow radix2 (-52))); lra). apply lt_IZR in H.
        destruct (IH y m' Hyf Hy) as (fuel & phi & H1 & H2 & H3 & H4); auto; [|lia|].
        * unfold y at 2. apply pw_mono; try apply plus1_range; auto; try apply f64_is. apply f64_le. lra.
        * exists (Datatypes.S fuel), phi. cbn [phi_loop]. fold y. destruct (Reqb_spec y x0); [lra|]. split; auto. split; auto. split; auto. lra. }
  intros Hf Hx Hle. destruct (f64_grid x Hf Hx) as [m E]. apply (G (Z.max 0 (m - 2 ^ 52 + 1)) ltac:(lia) x m); auto. lia.
Qed.
Lemma phi_ends : exists fuel phi, phi_loop plus1_f pw fuel 2 = Ok phi /\ is_f64 phi /\ 1 <= phi <= 2 /\ pw (plus1_f phi) = phi.
Proof. apply phi_from; [apply f64_2|lra|]. apply pw_range; [apply plus1_range; lra|apply f64_is]. Qed.
End Loop.

(** More fuel gives the same answer. *)
Lemma phi_fuel plus1 pw fuel k x v : phi_loop plus1 pw fuel x = Ok v -> phi_loop plus1 pw (fuel + k) x = Ok v.
Proof. revert x. induction fuel as [|fuel IH]; intros x H; [discriminate|]. cbn [phi_loop Nat.add] in *. destruct (Reqb _ _); auto. Qed.

(** ** A correctly rounded power *)
Lemma expo_range n : (0 < n)%nat -> 0 <= f64 (1 / INR (n + 1)) <= 1 / 2 /\ 0 < 1 / INR (n + 1) <= 1 / 2 /\
  Rabs (f64 (1 / INR (n + 1)) - 1 / INR (n + 1)) <= bpow radix2 (-54).
Proof.
  intros Hn. assert (H2 : 2 <= INR (n + 1)) by (replace 2 with (INR 2) by (simpl; lra); apply le_INR; lia).
  assert (H : 0 < 1 / INR (n + 1) <= 1 / 2).
  { split; [apply Rdiv_lt_0_compat; lra|]. apply (Rmult_le_reg_r (INR (n + 1))); [lra|]. unfold Rdiv at 1. rewrite Rmult_assoc, Rinv_l by lra. lra. }
  split; [|split]; auto.
  - split; [|rewrite <- (f64_id (1 / 2) f64_half); apply f64_le; lra]. rewrite <- (f64_id 0 (generic_format_0 _ _)). apply f64_le. lra.
  - eapply Rle_trans; [apply error_le_half_ulp; auto with typeclass_instances|].
    apply Rle_trans with (/ 2 * ulp radix2 f64_exp (bpow radix2 (-1))).
    + apply Rmult_le_compat_l; [lra|]. apply ulp_le; auto with typeclass_instances. rewrite !Rabs_pos_eq; [simpl; lra|apply bpow_ge_0|lra].
    + rewrite ulp_bpow. replace (f64_exp (-1 + 1)) with (-53)%Z by reflexivity. change (/ 2) with (bpow radix2 (-1)). rewrite <- bpow_plus. apply Rle_refl.
Qed.
Lemma Rpower_base_le a b e : 0 <= e -> 0 < a <= b -> Rpower a e <= Rpower b e.
Proof. intros He H. apply Rle_Rpower_l; auto. Qed.
Lemma root_range e u : 0 <= e <= 1 / 2 -> 2 <= u <= 3 -> 1 <= Rpower u e <= 7 / 4.
Proof.
  intros He Hu. split.
  - rewrite <- (Rpower_O u) by lra. apply Rle_Rpower; lra.
  - apply Rle_trans with (Rpower u (/ 2)); [apply Rle_Rpower; lra|]. rewrite Rpower_sqrt by lra.
    apply Rle_trans with (sqrt 3); [apply sqrt_le_1; lra|]. apply Rsqr_incr_0_var; [|lra]. rewrite Rsqr_sqrt by lra. unfold Rsqr. lra.
Qed.

Lemma pow_f_ok n : (0 < n)%nat ->
  (forall x, 2 <= x <= 3 -> is_f64 x -> is_f64 (pow_f n x)) /\
  (forall x y, 2 <= x -> x <= y -> y <= 3 -> is_f64 x -> is_f64 y -> pow_f n x <= pow_f n y) /\
  (forall x, 2 <= x <= 3 -> is_f64 x -> 1 <= pow_f n x <= 2).
Proof.
  intros Hn. destruct (expo_range n Hn) as (He & _). split; [|split].
  - intros. apply f64_is.
  - intros x y Hx Hxy Hy _ _. apply f64_le. apply Rpower_base_le; lra.
  - intros x Hx _. destruct (root_range _ x He Hx). unfold pow_f. pose proof (f64_id 1 f64_1) as E1. pose proof (f64_id 2 f64_2) as E2.
    split; [apply Rle_trans with (f64 1); [lra|]|apply Rle_trans with (f64 2); [|lra]]; apply f64_le; lra.
Qed.

(** ** Distance from the exact solution *)
Lemma half_ulp_le x e : 0 <= x <= bpow radix2 e -> (-1000 <= e)%Z -> Rabs (f64 x - x) <= bpow radix2 (e - 54).
Proof.
  intros Hx He. destruct (Req_EM_T x (bpow radix2 e)) as [->|Hne].
  { unfold f64. rewrite round_generic; auto with typeclass_instances; [|apply f64_bpow; lia]. rewrite Rminus_eq_0, Rabs_R0. apply bpow_ge_0. }
  eapply Rle_trans; [apply error_le_half_ulp; auto with typeclass_instances|].
  destruct (Req_EM_T x 0) as [->|H0].
  { rewrite ulp_FLT_0 by auto with typeclass_instances. change (/ 2) with (bpow radix2 (-1)). rewrite <- bpow_plus. apply bpow_le. lia. }
  rewrite ulp_neq_0 by auto. change (/ 2) with (bpow radix2 (-1)). rewrite <- bpow_plus. apply bpow_le. unfold cexp, FLT_exp.
  assert (mag radix2 x <= e)%Z; [|lia]. apply mag_le_bpow; auto. rewrite Rabs_pos_eq; lra.
Qed.

(** |ln a - ln b| <= |a - b| / m and |a - b| <= M |ln a - ln b|. *)
Lemma ln_diff a b : 0 < a -> 0 < b -> ln a - ln b <= (a - b) / b.
Proof.
  intros Ha Hb. assert (Eq : ln a - ln b = ln (a / b)) by (unfold Rdiv; rewrite ln_mult, ln_Rinv by (auto; apply Rinv_0_lt_compat; auto); ring).
  rewrite Eq. assert (H : exp (ln (a / b)) >= 1 + ln (a / b)).
  { destruct (Req_EM_T (ln (a / b)) 0) as [->|H]; [rewrite exp_0; lra|]. pose proof (exp_ineq1 _ H). lra. }
  rewrite exp_ln in H by (apply Rdiv_lt_0_compat; auto). replace ((a - b) / b) with (a / b - 1) by (field; lra). lra.
Qed.
Lemma ln_lip m a b : 0 < m -> m <= a -> m <= b -> Rabs (ln a - ln b) <= Rabs (a - b) / m.
Proof.
  intros Hm Ha Hb. assert (G : forall a b, m <= a -> m <= b -> ln a - ln b <= Rabs (a - b) / m).
  { clear a b Ha Hb. intros a b Ha Hb. eapply Rle_trans; [apply ln_diff; lra|].
    apply Rle_trans with (Rabs (a - b) / b).
    - apply Rmult_le_compat_r; [left; apply Rinv_0_lt_compat; lra|apply Rle_abs].
    - apply Rmult_le_compat_l; [apply Rabs_pos|]. apply Rinv_le_contravar; lra. }
  apply Rabs_le. split; [|apply G; auto]. pose proof (G b a Hb Ha). rewrite (Rabs_minus_sym b a) in H. lra.
Qed.
Lemma ln_lip_inv M a b : 0 < a <= M -> 0 < b <= M -> Rabs (a - b) <= M * Rabs (ln a - ln b).
Proof.
  assert (G : forall a b, 0 < a <= M -> 0 < b -> a - b <= M * Rabs (ln a - ln b)).
  { clear a b. intros a b Ha Hb. destruct (Rle_lt_dec a b) as [|Hlt]; [apply Rle_trans with 0; [lra|]; apply Rmult_le_pos; [lra|apply Rabs_pos]|].
    pose proof (ln_diff b a Hb ltac:(lra)) as H. pose proof (ln_increasing b a Hb Hlt). rewrite Rabs_pos_eq by lra.
    apply Rle_trans with (a * (ln a - ln b)); [|apply Rmult_le_compat_r; lra].
    apply (Rmult_le_compat_l a) in H; [|lra]. replace (a * ((b - a) / a)) with (b - a) in H by (field; lra). lra. }
  intros Ha Hb. apply Rabs_le. split; [|apply G; auto; lra]. pose proof (G b a Hb ltac:(lra)). rewrite (Rabs_minus_sym (ln b)) in H. lra.
Qed.

Lemma real_root_range n r : (0 < n)%nat -> 0 < r -> r ^ (n + 1) = 1 + r -> 1 <= r <= 2.
Proof.
  intros Hn Hr E. split.
  - destruct (Rle_lt_dec 1 r) as [|Hlt]; auto. assert (r ^ (n + 1) <= 1 ^ (n + 1)) by (apply pow_incr; lra). rewrite pow1 in H. lra.
  - destruct (Rle_lt_dec r 2) as [|Hlt]; auto. assert (r ^ 2 <= r ^ (n + 1)) by (apply Rle_pow; [lra|lia]). nra.
Qed.

Lemma fix_close n phi r : (0 < n)%nat -> 1 <= phi <= 2 -> pow_f n (plus1_f phi) = phi -> 0 < r -> r ^ (n + 1) = 1 + r ->
  Rabs (phi - r) <= bpow radix2 (-50).
Proof.
  intros Hn Hp Hfix Hr Er. pose proof (real_root_range n r Hn Hr Er) as Hr12.
  destruct (expo_range n Hn) as (He & He0 & Hde). set (e := f64 (1 / INR (n + 1))) in *. set (e0 := 1 / INR (n + 1)) in *.
  pose proof (plus1_range phi Hp) as Hu. set (u := plus1_f phi) in *.
  assert (Hdu : Rabs (u - (1 + phi)) <= bpow radix2 (-52)) by (apply (half_ulp_le (1 + phi) 2); [simpl; lra|lia]).
  assert (Hw : 1 <= Rpower u e <= 7 / 4) by (apply root_range; auto). set (w := Rpower u e) in *.
  assert (Hdw : Rabs (phi - w) <= bpow radix2 (-53)) by (rewrite <- Hfix; apply (half_ulp_le w 1); [simpl; lra|lia]).
  assert (Elw : ln w = e * ln u) by (unfold w, Rpower; rewrite ln_exp; auto).
  assert (Elr : ln r = e0 * ln (1 + r)).
  { rewrite <- Er. rewrite <- Rpower_pow by auto. unfold Rpower. rewrite ln_exp. unfold e0. field. apply not_0_INR. lia. }
  assert (Hlu : 0 <= ln u <= 2).
  { split; [rewrite <- ln_1; apply Rlt_le, ln_increasing; lra|]. pose proof (ln_diff u 1 ltac:(lra) ltac:(lra)). rewrite ln_1 in H. lra. }
  assert (H1 : Rabs (ln w - ln r) <= 2 * bpow radix2 (-54) + / 4 * Rabs (u - (1 + r))).
  { rewrite Elw, Elr. replace (e * ln u - e0 * ln (1 + r)) with ((e - e0) * ln u + e0 * (ln u - ln (1 + r))) by ring.
    eapply Rle_trans; [apply Rabs_triang|]. rewrite !Rabs_mult. rewrite (Rabs_pos_eq (ln u)), (Rabs_pos_eq e0) by lra.
    pose proof (Rabs_pos (e - e0)). pose proof (ln_lip 2 u (1 + r) ltac:(lra) ltac:(lra) ltac:(lra)). pose proof (Rabs_pos (u - (1 + r))).
    pose proof (Rabs_pos (ln u - ln (1 + r))). nra. }
  assert (H2 : Rabs (w - r) <= 2 * Rabs (ln w - ln r)) by (apply ln_lip_inv; lra).
  assert (H3 : Rabs (u - (1 + r)) <= bpow radix2 (-52) + Rabs (phi - r)).
  { replace (u - (1 + r)) with ((u - (1 + phi)) + (phi - r)) by ring. eapply Rle_trans; [apply Rabs_triang|]. lra. }
  assert (H4 : Rabs (phi - r) <= Rabs (phi - w) + Rabs (w - r)).
  { replace (phi - r) with ((phi - w) + (w - r)) by ring. apply Rabs_triang. }
  assert (E53 : bpow radix2 (-53) = 2 * bpow radix2 (-54)) by (change 2 with (bpow radix2 1); rewrite <- bpow_plus; reflexivity).
  assert (E52 : bpow radix2 (-52) = 4 * bpow radix2 (-54)) by (change 4 with (bpow radix2 2); rewrite <- bpow_plus; reflexivity).
  assert (E50 : bpow radix2 (-50) = 16 * bpow radix2 (-54)) by (change 16 with (bpow radix2 4); rewrite <- bpow_plus; reflexivity).
  pose proof (bpow_gt_0 radix2 (-54)). lra.
Qed.
