(** * FloatHyperUnit: candidate normals normalised in float64, against exact arithmetic. *)
From Coq Require Import Reals Lra Permutation.
From Flocq Require Import Core BinarySingleNaN.
From Verif Require Import Prelude Lists RealOps Hyper FloatFeat FloatReg FloatSum FloatNG FloatClf FloatClfSum FloatHyper FloatHyperDot FloatHyperFit FloatHyperEx.
Local Open Scope R_scope.

(** The vector that a candidate stands for: NaN is 0 (the value [B2R] of NaN is 0), and the first unit vector replaces the zero vector. *)
Definition direction (v : list float64) : list R :=
  if forallb (fun a => is_nan a || Beqb a f_zero) v then set_nth 0 1 (repeat 0 (length v)) else map B2R v.
Definition norm2 (r : list R) : R := sqrt (dot r r).

Lemma dot_self (w : list float64) : dsum (combine w w) = dot (map B2R w) (map B2R w) /\ dabs (combine w w) = dot (map B2R w) (map B2R w).
Proof.
  induction w as [|a w [I1 I2]]; [split; reflexivity|]. unfold dot, vsum in *. cbn [combine map RealOps.map2 fold_right]. rewrite dsum_cons, dabs_cons, I1, I2.
  rewrite (Rabs_pos_eq (B2R a * B2R a)) by apply Rle_0_sqr. split; reflexivity.
Qed.
Lemma dot_self_ge (r : list R) x : In x r -> x * x <= dot r r.
Proof.
  assert (P : forall r, 0 <= dot r r).
  { induction r0 as [|a r0 IH]; unfold dot, vsum in *; cbn [RealOps.map2 fold_right]; [lra|]. pose proof (Rle_0_sqr a). unfold Rsqr in *. lra. }
  induction r as [|a r IH]; intros []; specialize (P r); unfold dot, vsum in *; cbn [RealOps.map2 fold_right]; [subst; lra|].
  pose proof (Rle_0_sqr a). unfold Rsqr in *. specialize (IH H). lra.
Qed.
Lemma dot_self_le (w : list float64) M : 0 <= M -> Forall (within M) w -> dot (map B2R w) (map B2R w) <= INR (length w) * (M * M).
Proof.
  intros HM H. induction H as [|a w [_ Ha] H IH]; [unfold dot, vsum; simpl; lra|]. unfold dot, vsum in *. cbn [map RealOps.map2 fold_right length]. rewrite S_INR.
  assert (B2R a * B2R a <= M * M).
  { replace (B2R a * B2R a) with (Rabs (B2R a) * Rabs (B2R a)) by (rewrite <- Rabs_mult; apply Rabs_pos_eq, Rle_0_sqr). apply Rmult_le_compat; auto using Rabs_pos. }
  lra.
Qed.

(** The arithmetic of the three roundings: [s] near [S], [r] near its root, [q] near the quotient. *)
Lemma sqrt_rel S s d : 0 < S -> 0 <= d <= / 2 -> Rabs (s - S) <= d * S -> 0 < s /\ Rabs (sqrt s - sqrt S) <= d * sqrt S.
Proof.
  intros HS Hd H. apply Rabs_le_inv in H. assert (Hs : 0 < s) by (assert (d * S <= / 2 * S) by (apply Rmult_le_compat_r; lra); lra).
  split; [exact Hs|]. pose proof (sqrt_lt_R0 S HS) as P. pose proof (sqrt_lt_R0 s Hs) as Q. pose proof (sqrt_sqrt S ltac:(lra)) as E1. pose proof (sqrt_sqrt s ltac:(lra)) as E2.
  set (a := sqrt s) in *. set (b := sqrt S) in *. apply Rabs_le. assert (K : forall c, 0 <= c -> c * b <= c * (a + b)) by (intros; apply Rmult_le_compat_l; lra). split.
  - apply (Rmult_le_reg_r (a + b)); [lra|]. replace ((a - b) * (a + b)) with (s - S) by (rewrite <- E1, <- E2; ring).
    specialize (K (d * b) ltac:(apply Rmult_le_pos; lra)). replace (- (d * b) * (a + b)) with (- (d * b * (a + b))) by ring.
    replace (d * S) with (d * b * b) in H by (rewrite <- E1; ring). lra.
  - apply (Rmult_le_reg_r (a + b)); [lra|]. replace ((a - b) * (a + b)) with (s - S) by (rewrite <- E1, <- E2; ring).
    specialize (K (d * b) ltac:(apply Rmult_le_pos; lra)). replace (d * S) with (d * b * b) in H by (rewrite <- E1; ring). lra.
Qed.
Lemma quotient_rel x b r e : 0 < b -> 0 <= e <= / 100 -> Rabs (r - b) <= e * b -> Rabs x <= b -> 0 < r /\ Rabs (x / r - x / b) <= 102 / 100 * e /\ Rabs (x / r) <= 102 / 100.
Proof.
  intros Hb He Hr Hx. apply Rabs_le_inv in Hr. assert (E1 : 0 <= e * b <= / 100 * b) by (split; [apply Rmult_le_pos; lra|apply Rmult_le_compat_r; lra]).
  assert (Pr : 0 < r) by lra. split; [exact Pr|].
  assert (Q : Rabs (x / r) <= 102 / 100).
  { unfold Rdiv. rewrite Rabs_mult, Rabs_inv, (Rabs_pos_eq r) by lra. apply (Rmult_le_reg_r r); [exact Pr|]. rewrite Rmult_assoc, Rinv_l by lra. lra. }
  split; [|exact Q]. replace (x / r - x / b) with ((x / r) * ((b - r) / b)) by (field; lra). rewrite Rabs_mult.
  apply Rmult_le_compat; try apply Rabs_pos; [exact Q|]. unfold Rdiv. rewrite Rabs_mult, Rabs_inv, (Rabs_pos_eq b) by lra.
  apply (Rmult_le_reg_r b); [exact Hb|]. rewrite Rmult_assoc, Rinv_l by lra. rewrite Rmult_1_r. apply Rabs_le. lra.
Qed.

Section Unit.
Variable fdot : list float64 -> list float64 -> float64.
Hypothesis dot_is : blas fdot.

Lemma normalise_close (w : list float64) : INR (length w) <= b2 20 -> Forall (within (b2 400)) w -> (exists a, In a w /\ b2 (-400) <= Rabs (B2R a)) ->
  forall a, In a w -> let q := f_div a (f_sqrt (fdot w w)) in
  is_finite q = true /\ Rabs (B2R q - B2R a / norm2 (map B2R w)) <= 8 * INR (length w) * u53.
Proof.
  intros Hm Hw (a0 & Ha0 & Hb0) a Ha. cbv zeta. set (m := INR (length w)) in *. set (S := dot (map B2R w) (map B2R w)).
  destruct (dot_self w) as [Es Ea]. fold S in Es, Ea.
  assert (Pm : 1 <= m) by (unfold m; destruct w; [destruct Ha|cbn [length]; rewrite S_INR; pose proof (pos_INR (length w)); lra]).
  assert (SL : b2 (-800) <= S).
  { eapply Rle_trans; [|apply (dot_self_ge (map B2R w) (B2R a0)), in_map, Ha0]. replace (B2R a0 * B2R a0) with (Rabs (B2R a0) * Rabs (B2R a0)) by (rewrite <- Rabs_mult; apply Rabs_pos_eq, Rle_0_sqr).
    change (-800)%Z with (-400 + -400)%Z. rewrite bpow_plus. pose proof (b2_pos (-400)). apply Rmult_le_compat; lra. }
  assert (SU : S <= b2 820).
  { eapply Rle_trans; [apply (dot_self_le w (b2 400)); [apply Rlt_le, b2_pos|exact Hw]|]. fold m. rewrite <- bpow_plus. change (400 + 400)%Z with 800%Z. change 820%Z with (20 + 800)%Z. rewrite (bpow_plus radix2 20).
    apply Rmult_le_compat_r; [apply Rlt_le, b2_pos|exact Hm]. }
  pose proof (b2_pos (-800)) as P800. assert (PS : 0 < S) by lra.
  assert (Hu : 0 < u53 <= / 9007199254740992) by (rewrite u53_val; lra).
  change (b2 20) with 1048576 in Hm. assert (Hmu : 0 < m * u53 <= / 1000000000).
  { split; [apply Rmult_lt_0_compat; lra|]. assert (m * u53 <= 1048576 * / 9007199254740992) by (apply Rmult_le_compat; lra). lra. }
  destruct (dot_err (combine w w) (fdot w w)) as (Fs & _ & He).
  { apply dot_is. reflexivity. }
  { eapply fin_combine; eauto. }
  { rewrite Ea. eapply Rle_trans; [exact SU|apply b2_le; lia]. }
  { rewrite combine_length, Nat.min_id. fold m. change (b2 20) with 1048576. exact Hm. }
  specialize (He ltac:(destruct w; [destruct Ha|discriminate])). rewrite combine_length, Nat.min_id, Es, Ea in He. fold m in He.
  assert (T1 : b2 (-1074) <= u53 * S / 1024).
  { apply Rle_trans with (b2 (-53) * b2 (-800) / 1024).
    - change (/ 1024) with (b2 (-10)). unfold Rdiv. change (/ 1024) with (b2 (-10)). rewrite <- !bpow_plus. apply b2_le. lia.
    - change (b2 (-53)) with (/ 9007199254740992). rewrite u53_val. assert (/ 9007199254740992 * b2 (-800) <= / 9007199254740992 * S) by (apply Rmult_le_compat_l; lra). lra. }
  assert (He' : Rabs (B2R (fdot w w) - S) <= (21 / 10 * (m * u53)) * S).
  { eapply Rle_trans; [exact He|]. pose proof (b2_pos (-1074)) as Pe. assert ((2 * m - 1) * b2 (-1074) <= 2 * m * (u53 * S / 1024)).
    { apply Rle_trans with (2 * m * b2 (-1074)); [apply Rmult_le_compat_r; lra|apply Rmult_le_compat_l; lra]. }
    assert (0 <= m * u53 * S) by (apply Rmult_le_pos; lra). lra. }
  clear He. destruct (sqrt_rel S (B2R (fdot w w)) (21 / 10 * (m * u53)) PS ltac:(lra) He') as [Ps Hsq].
  set (s := B2R (fdot w w)) in *.
  destruct (Bsqrt_correct 53 1024 _ _ mode_NE (fdot w w)) as (EN & FN & _). change (round_mode mode_NE) with (Znearest (fun x => negb (Z.even x))) in EN. fold (f_sqrt (fdot w w)) in EN, FN. fold s in EN.
  assert (FR : is_finite (f_sqrt (fdot w w)) = true).
  { rewrite FN. unfold s in Ps. destruct (fdot w w) as [| | |[] e f Hf]; try discriminate Fs; try reflexivity. exfalso. revert Ps. cbn [B2R]. apply Rle_not_lt. apply Rlt_le, F2R_lt_0. reflexivity. }
  set (b := sqrt S) in *. assert (Pb : b2 (-400) <= b).
  { unfold b. rewrite <- (sqrt_square (b2 (-400))) by apply Rlt_le, b2_pos. apply sqrt_le_1; [apply Rmult_le_pos; apply Rlt_le, b2_pos|lra|]. rewrite <- bpow_plus. exact SL. }
  pose proof (b2_pos (-400)) as P400.
  assert (HR : Rabs (B2R (f_sqrt (fdot w w)) - b) <= (32 / 10 * (m * u53)) * b).
  { rewrite EN. pose proof (RN64_rel (sqrt s)) as K. change (bpow radix2 (-53)) with (/ 9007199254740992) in K. rewrite (Rabs_pos_eq (sqrt s)) in K by apply sqrt_pos.
    apply Rabs_le_inv in Hsq. assert (Q1 : 0 <= 21 / 10 * (m * u53) * b <= / 100 * b) by (split; [apply Rmult_le_pos; lra|apply Rmult_le_compat_r; lra]).
    assert (Q2 : b2 (-1022) <= b2 (-400) / 2).
    { unfold Rdiv. change (/ 2) with (b2 (-1)). rewrite <- bpow_plus. apply b2_le. lia. }
    specialize (K ltac:(lra)). apply Rabs_le_inv in K. rewrite <- u53_val in K.
    assert (Q3 : u53 * sqrt s <= 101 / 100 * (m * u53 * b)).
    { assert (Q4 : u53 * sqrt s <= u53 * (101 / 100 * b)) by (apply Rmult_le_compat_l; lra).
      assert (Q5 : 1 * (u53 * b) <= m * (u53 * b)) by (apply Rmult_le_compat_r; [apply Rmult_le_pos; lra|lra]). lra. }
    assert (Q6 : 0 <= m * u53 * b) by (apply Rmult_le_pos; lra).
    apply Rabs_le. lra. }
  assert (Hxa : Rabs (B2R a) <= b).
  { unfold b. rewrite <- (sqrt_square (Rabs (B2R a))) by apply Rabs_pos. apply sqrt_le_1; [apply Rmult_le_pos; apply Rabs_pos|lra|].
    rewrite <- Rabs_mult, Rabs_pos_eq by apply Rle_0_sqr. apply dot_self_ge, in_map, Ha. }
  destruct (quotient_rel (B2R a) b (B2R (f_sqrt (fdot w w))) (32 / 10 * (m * u53)) ltac:(lra) ltac:(lra) HR Hxa) as (Pr & HQ & HQ1).
  rewrite Forall_forall in Hw. destruct (Hw a Ha) as [Fa _].
  destruct (div_ok a (f_sqrt (fdot w w)) Fa ltac:(lra)) as [Fq Eq].
  { eapply Rle_trans; [exact HQ1|]. apply Rle_trans with (b2 1); [change (b2 1) with 2; lra|apply b2_le; lia]. }
  split; [exact Fq|]. unfold norm2. fold S. fold b. rewrite Eq. pose proof (RN64_err (B2R a / B2R (f_sqrt (fdot w w)))) as K.
  assert (T2 : b2 (-1075) <= u53) by (rewrite u53_val; change (/ 9007199254740992) with (b2 (-53)); apply b2_le; lia).
  assert (T3 : u53 * Rabs (B2R a / B2R (f_sqrt (fdot w w))) <= u53 * (102 / 100)) by (apply Rmult_le_compat_l; lra).
  assert (T4 : 1 * u53 <= m * u53) by (apply Rmult_le_compat_r; lra).
  apply Rabs_le_inv in K, HQ. apply Rabs_le. lra.
Qed.

(** Entries that are NaN or at most 2^400, at least one of the vector at least 2^-400. *)
Theorem unit_close v : INR (length v) <= b2 20 -> Forall (fun a => is_nan a = true \/ within (b2 400) a) v ->
  (exists x, In x (direction v) /\ b2 (-400) <= Rabs x) ->
  length (f_unit fdot v) = length v /\ forall k, (k < length v)%nat ->
  is_finite (nth k (f_unit fdot v) f_zero) = true /\
  Rabs (B2R (nth k (f_unit fdot v) f_zero) - nth k (direction v) 0 / norm2 (direction v)) <= 8 * INR (length v) * u53.
Proof.
  intros Hm Hv Hd. split; [apply unit_length|]. unfold f_unit. set (w := if forallb _ _ then _ else _).
  assert (E : forallb (fun x => Beqb x f_zero) (map f_nan_to_num v) = forallb (fun a => is_nan a || Beqb a f_zero) v).
  { clear -Hv. induction Hv as [|a v Ha Hv IH]; [reflexivity|]. cbn [map forallb]. rewrite IH. f_equal. destruct Ha as [Ha|[Ha _]]; destruct a; try discriminate; reflexivity. }
  assert (B0 : 1 <= b2 400) by (change 1 with (b2 0); apply b2_le; lia).
  assert (F1 : Forall (within (b2 400)) (map f_nan_to_num v)).
  { clear -Hv B0. induction Hv as [|a v Ha Hv IH]; constructor; [|exact IH]. destruct Ha as [Ha|[Ha Hb]].
    - destruct a; try discriminate. apply zero_within. lra.
    - destruct a; try discriminate; split; assumption. }
  assert (Ew : map B2R w = direction v /\ Forall (within (b2 400)) w /\ length w = length v).
  { unfold w, direction. rewrite E. destruct (forallb (fun a => is_nan a || Beqb a f_zero) v) eqn:Ez.
    - destruct v as [|a v]; [split; [reflexivity|split; [constructor|reflexivity]]|]. cbn [map set_nth length repeat]. inversion F1 as [|? ? _ F2]; subst. destruct one_ok as [_ E1].
      split; [|split; [constructor; [apply one_within, B0|exact F2]|rewrite map_length; reflexivity]]. rewrite E1. f_equal.
      cbn [forallb] in Ez. apply andb_prop in Ez as [_ Ez]. inversion Hv as [|? ? _ Hv']; subst. clear -Ez Hv'. revert Ez. induction Hv' as [|a v Ha Hv IH]; [reflexivity|]. cbn [forallb map length repeat]. intros Ez.
      apply andb_prop in Ez as [E1 E2]. rewrite (IH E2). f_equal. destruct Ha as [Ha|[Ha _]]; destruct a as [| | |s e f Hf]; try discriminate; try reflexivity.
      cbn [is_nan orb] in E1. rewrite Beqb_correct in E1 by reflexivity. change (B2R f_zero) with 0 in E1.
      destruct (Req_bool_spec (B2R (B754_finite s e f Hf : float64)) 0) as [K|K]; [exact K|discriminate].
    - split; [|split; [exact F1|apply map_length]]. rewrite map_map. apply map_ext_in. intros a Ha. rewrite Forall_forall in Hv. destruct (Hv a Ha) as [K|[K _]]; destruct a; try discriminate; reflexivity. }
  destruct Ew as (Ew & Fw & Lw). intros k Hk. clearbody w. rewrite <- Ew in *. rewrite <- Lw in *.
  assert (Ex : exists a, In a w /\ b2 (-400) <= Rabs (B2R a)) by (destruct Hd as (x & Hx & Hx'); apply in_map_iff in Hx as (a & <- & Ha); eauto).
  pose proof (normalise_close w Hm Fw Ex (nth k w f_zero) (nth_In _ _ Hk)) as K. cbv zeta in K.
  rewrite (nth_indep _ f_zero (f_div f_zero (f_sqrt (fdot w w)))) by (rewrite map_length; exact Hk).
  rewrite (map_nth (fun x => f_div x (f_sqrt (fdot w w)))). rewrite (nth_indep (map B2R w) 0 (B2R f_zero)) by (rewrite map_length; exact Hk). rewrite (map_nth B2R). exact K.
Qed.
End Unit.
