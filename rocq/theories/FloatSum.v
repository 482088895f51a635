(** * FloatSum: values of float64 operations, and sums that are exact because everything is a small integer. *)
From Coq Require Import Reals Lra Permutation Psatz.
From Flocq Require Import Core BinarySingleNaN Relative Plus_error.
From Verif Require Import Prelude FloatFeat FloatReg.
Local Open Scope R_scope.

Notation fexp64 := (SpecFloat.fexp 53 1024).
Notation fmt64 := (generic_format radix2 fexp64).
Notation RN64 := (round radix2 fexp64 (Znearest (fun x => negb (Z.even x)))).

Local Instance vexp64 : Valid_exp fexp64 := fexp_correct 53 1024 prec64_pos.
Lemma fexp64_FLT : fexp64 = FLT_exp (-1074) 53.
Proof. reflexivity. Qed.

(** ** Rounding *)
Lemma RN64_le x y : x <= y -> RN64 x <= RN64 y.
Proof. apply round_le; [apply vexp64|apply valid_rnd_N]. Qed.
Lemma RN64_fmt x : fmt64 x -> RN64 x = x.
Proof. apply round_generic, valid_rnd_N. Qed.
Lemma RN64_0 : RN64 0 = 0.
Proof. apply round_0, valid_rnd_N. Qed.
Lemma RN64_nonneg x : 0 <= x -> 0 <= RN64 x.
Proof. intros H. rewrite <- RN64_0. apply RN64_le, H. Qed.
Lemma fmt64_bpow e : (-1074 <= e)%Z -> fmt64 (bpow radix2 e).
Proof. intros H. apply generic_format_bpow. rewrite fexp64_FLT. unfold FLT_exp. lia. Qed.
Lemma RN64_abs_le x e : (-1074 <= e)%Z -> Rabs x <= bpow radix2 e -> Rabs (RN64 x) <= bpow radix2 e.
Proof. intros He H. apply abs_round_le_generic; [apply vexp64|apply valid_rnd_N|apply fmt64_bpow, He|exact H]. Qed.
Lemma fmt64_scaled z e : (Z.abs z < 2 ^ 53)%Z -> (-1074 <= e)%Z -> fmt64 (IZR z * bpow radix2 e).
Proof.
  intros Hz He. rewrite fexp64_FLT. apply generic_format_FLT. exists (Float radix2 z e); [reflexivity|exact Hz|exact He].
Qed.
Lemma fmt64_int z : (Z.abs z < 2 ^ 53)%Z -> fmt64 (IZR z).
Proof. intros H. replace (IZR z) with (IZR z * bpow radix2 0) by (simpl; lra). apply fmt64_scaled; auto. lia. Qed.
Lemma RN64_rel x : bpow radix2 (-1022) <= Rabs x -> Rabs (RN64 x - x) <= bpow radix2 (-53) * Rabs x.
Proof.
  intros H. replace (bpow radix2 (-53)) with (/ 2 * bpow radix2 (- 53 + 1)) by (simpl; lra).
  apply (relative_error_N_FLT radix2 (-1074) 53 eq_refl (fun x => negb (Z.even x))). exact H.
Qed.
(** A sum of two floats is zero after rounding only if it is zero. *)
Lemma RN64_sum_pos a b : fmt64 a -> fmt64 b -> 0 < a + b -> 0 < RN64 (a + b).
Proof.
  intros Ha Hb H. destruct (RN64_nonneg (a + b)) as [H0|H0]; [lra|exact H0|].
  exfalso. symmetry in H0. revert H0. apply (round_plus_neq_0 radix2 fexp64 (Znearest (fun x => negb (Z.even x)))); auto; lra.
Qed.

(** ** Operations on finite numbers *)
Lemma big_ok x : Rabs x <= bpow radix2 1023 -> Rabs (RN64 x) < bpow radix2 1024.
Proof. intros H. apply Rle_lt_trans with (bpow radix2 1023); [apply RN64_abs_le; [lia|exact H]|apply bpow_lt; lia]. Qed.
Lemma add_ok (a b : float64) : is_finite a = true -> is_finite b = true -> Rabs (B2R a + B2R b) <= bpow radix2 1023 ->
  is_finite (f_add a b) = true /\ B2R (f_add a b) = RN64 (B2R a + B2R b).
Proof.
  intros Ha Hb H. generalize (Bplus_correct 53 1024 _ _ mode_NE a b Ha Hb).
  change (round_mode mode_NE) with (Znearest (fun x => negb (Z.even x))). rewrite Rlt_bool_true by (apply big_ok, H). intros (H1 & H2 & _). auto.
Qed.
Lemma sub_ok (a b : float64) : is_finite a = true -> is_finite b = true -> Rabs (B2R a - B2R b) <= bpow radix2 1023 ->
  is_finite (f_sub a b) = true /\ B2R (f_sub a b) = RN64 (B2R a - B2R b).
Proof.
  intros Ha Hb H. generalize (Bminus_correct 53 1024 _ _ mode_NE a b Ha Hb).
  change (round_mode mode_NE) with (Znearest (fun x => negb (Z.even x))). rewrite Rlt_bool_true by (apply big_ok, H). intros (H1 & H2 & _). auto.
Qed.
Lemma mul_ok (a b : float64) : is_finite a = true -> is_finite b = true -> Rabs (B2R a * B2R b) <= bpow radix2 1023 ->
  is_finite (f_mul a b) = true /\ B2R (f_mul a b) = RN64 (B2R a * B2R b).
Proof.
  intros Ha Hb H. generalize (Bmult_correct 53 1024 _ _ mode_NE a b).
  change (round_mode mode_NE) with (Znearest (fun x => negb (Z.even x))). rewrite Rlt_bool_true by (apply big_ok, H). intros (H1 & H2 & _).
  rewrite Ha, Hb in H2. auto.
Qed.
Lemma div_ok (a b : float64) : is_finite a = true -> B2R b <> 0 -> Rabs (B2R a / B2R b) <= bpow radix2 1023 ->
  is_finite (f_div a b) = true /\ B2R (f_div a b) = RN64 (B2R a / B2R b).
Proof.
  intros Ha Hb H. generalize (Bdiv_correct 53 1024 _ _ mode_NE a b Hb).
  change (round_mode mode_NE) with (Znearest (fun x => negb (Z.even x))). rewrite Rlt_bool_true by (apply big_ok, H). intros (H1 & H2 & _).
  rewrite Ha in H2. auto.
Qed.
Lemma int_ok z : (Z.abs z < 2 ^ 53)%Z -> is_finite (f_int z) = true /\ B2R (f_int z) = IZR z.
Proof.
  intros H. generalize (binary_normalize_correct 53 1024 prec64_pos prec64_lt mode_NE z 0 false).
  change (round_mode mode_NE) with (Znearest (fun x => negb (Z.even x))).
  replace (F2R (Float radix2 z 0)) with (IZR z) by (unfold F2R; simpl; lra).
  cbv zeta. rewrite (RN64_fmt (IZR z)) by (apply fmt64_int, H).
  rewrite Rlt_bool_true; [intros (H1 & H2 & _); auto|].
  rewrite <- abs_IZR. apply Rlt_le_trans with (IZR (2 ^ 53)); [apply IZR_lt, H|].
  change (bpow radix2 1024) with (IZR (2 ^ 1024)). apply IZR_le. apply Z.pow_le_mono_r; lia.
Qed.

Lemma fmt_B2R (a : float64) : fmt64 (B2R a).
Proof. apply generic_format_B2R. Qed.
Lemma half_ok : is_finite f_half = true /\ B2R f_half = / 2.
Proof.
  split; [reflexivity|]. rewrite <- SF2R_B2SF. replace (B2SF f_half) with (SpecFloat.S754_finite false 4503599627370496 (-53)) by (vm_compute; reflexivity).
  unfold SF2R, F2R. cbn [cond_Zopp Fnum Fexp]. change (bpow radix2 (-53)) with (/ IZR 9007199254740992). field.
Qed.
Lemma one_ok : is_finite f_one = true /\ B2R f_one = 1.
Proof. split; [reflexivity|apply Bone_correct]. Qed.

(** ** Sums *)
(** [a] results from adding up the numbers of [l] in some order and with some bracketing. *)
Inductive sum_of : list float64 -> float64 -> Prop :=
| sum_none : sum_of [] f_zero
| sum_one a : sum_of [a] a
| sum_two l l1 l2 a b : Permutation l (l1 ++ l2) -> sum_of l1 a -> sum_of l2 b -> sum_of l (f_add a b).

Lemma fold_sum l : forall l0 a, sum_of l0 a -> sum_of (l0 ++ l) (fold_left f_add l a).
Proof.
  induction l as [|b l IH]; intros l0 a H; cbn [fold_left]; [rewrite app_nil_r; exact H|].
  replace (l0 ++ b :: l)%list with ((l0 ++ [b]) ++ l)%list by (rewrite <- app_assoc; reflexivity).
  apply IH. eapply sum_two; [apply Permutation_refl|exact H|apply sum_one].
Qed.
Lemma f_sum_sum l : sum_of l (f_sum l).
Proof. exact (fold_sum l [] f_zero sum_none). Qed.

(** Floats that are small integers. *)
Definition is_int (a : float64) (z : Z) : Prop := is_finite a = true /\ B2R a = IZR z.
Definition zsum (l : list Z) : Z := fold_right Z.add 0%Z l.
Lemma zsum_app l l' : zsum (l ++ l') = (zsum l + zsum l')%Z.
Proof. induction l as [|a l IH]; simpl; [reflexivity|]. unfold zsum in *. rewrite IH. lia. Qed.
Lemma zsum_perm l l' : Permutation l l' -> zsum l = zsum l'.
Proof. induction 1; unfold zsum in *; simpl; lia. Qed.
Lemma zsum_abs l : (Z.abs (zsum l) <= zsum (map Z.abs l))%Z.
Proof. induction l as [|a l IH]; simpl; [lia|]. unfold zsum in *. simpl. lia. Qed.
Lemma zsum_abs_pos l : (0 <= zsum (map Z.abs l))%Z.
Proof. pose proof (zsum_abs l). lia. Qed.

Lemma int_add a b x y : is_int a x -> is_int b y -> (Z.abs (x + y) < 2 ^ 53)%Z -> is_int (f_add a b) (x + y).
Proof.
  intros [Ha Ea] [Hb Eb] H. destruct (add_ok a b Ha Hb) as [H1 H2].
  - rewrite Ea, Eb, <- plus_IZR, <- abs_IZR. apply Rle_trans with (IZR (2 ^ 53)); [apply IZR_le; lia|]. change (IZR (2 ^ 53)) with (bpow radix2 53). apply bpow_le. lia.
  - split; [exact H1|]. rewrite H2, Ea, Eb, <- plus_IZR. apply RN64_fmt, fmt64_int, H.
Qed.
Lemma int_sub a b x y : is_int a x -> is_int b y -> (Z.abs (x - y) < 2 ^ 53)%Z -> is_int (f_sub a b) (x - y).
Proof.
  intros [Ha Ea] [Hb Eb] H. destruct (sub_ok a b Ha Hb) as [H1 H2].
  - rewrite Ea, Eb, <- minus_IZR, <- abs_IZR. apply Rle_trans with (IZR (2 ^ 53)); [apply IZR_le; lia|]. change (IZR (2 ^ 53)) with (bpow radix2 53). apply bpow_le. lia.
  - split; [exact H1|]. rewrite H2, Ea, Eb, <- minus_IZR. apply RN64_fmt, fmt64_int, H.
Qed.
Lemma int_mul a b x y : is_int a x -> is_int b y -> (Z.abs (x * y) < 2 ^ 53)%Z -> is_int (f_mul a b) (x * y).
Proof.
  intros [Ha Ea] [Hb Eb] H. destruct (mul_ok a b Ha Hb) as [H1 H2].
  - rewrite Ea, Eb, <- mult_IZR, <- abs_IZR. apply Rle_trans with (IZR (2 ^ 53)); [apply IZR_le; lia|]. change (IZR (2 ^ 53)) with (bpow radix2 53). apply bpow_le. lia.
  - split; [exact H1|]. rewrite H2, Ea, Eb, <- mult_IZR. apply RN64_fmt, fmt64_int, H.
Qed.
Lemma int_nat n : (Z.of_nat n < 2 ^ 53)%Z -> is_int (f_nat n) (Z.of_nat n).
Proof. intros H. apply int_ok. lia. Qed.

(** Every order of additions gives the exact sum. *)
Lemma sum_exact l a : sum_of l a -> forall zs, Forall2 is_int l zs -> (zsum (map Z.abs zs) < 2 ^ 53)%Z -> is_int a (zsum zs).
Proof.
  induction 1 as [|a|l l1 l2 a b Hp H1 IH1 H2 IH2]; intros zs Hz Hb.
  - inversion Hz; subst. split; [reflexivity|]. reflexivity.
  - inversion Hz as [|? z ? zs' Ha Hz']; subst. inversion Hz'; subst. simpl. rewrite Z.add_0_r. exact Ha.
  - assert (exists zs', Permutation zs zs' /\ Forall2 is_int (l1 ++ l2) zs') as (zs' & Hp' & Hz').
    { clear -Hp Hz. revert zs Hz. induction Hp as [|x l l' Hp IH|x y l|l l' l'' Hp IH Hp' IH']; intros zs Hz.
      - exists zs. split; [apply Permutation_refl|exact Hz].
      - inversion Hz as [|? z ? zs0 Hx Hz0]; subst. destruct (IH zs0 Hz0) as (zs' & H1 & H2). exists (z :: zs'). split; [constructor; exact H1|constructor; auto].
      - inversion Hz as [|? z ? zs0 Hx Hz0]; subst. inversion Hz0 as [|? z' ? zs1 Hx' Hz1]; subst. exists (z' :: z :: zs1). split; [apply perm_swap|constructor; auto].
      - destruct (IH zs Hz) as (zs' & H1 & H2). destruct (IH' zs' H2) as (zs'' & H3 & H4). exists zs''. split; [eapply perm_trans; eauto|exact H4]. }
    rewrite (zsum_perm _ _ Hp'). rewrite (zsum_perm _ _ (Permutation_map Z.abs Hp')) in Hb. clear zs Hz Hp'.
    apply Forall2_app_inv_l in Hz' as (z1 & z2 & Hz1 & Hz2 & ->). rewrite map_app, zsum_app in Hb. rewrite zsum_app.
    pose proof (zsum_abs_pos z1). pose proof (zsum_abs_pos z2). pose proof (zsum_abs z1). pose proof (zsum_abs z2).
    apply int_add; [apply IH1; auto; lia|apply IH2; auto; lia|lia].
Qed.
