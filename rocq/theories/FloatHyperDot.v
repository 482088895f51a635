(** * FloatHyperDot: rounding in dot products computed in any order, fused or not; computed unit vectors. *)
From Coq Require Import Reals Lra Permutation.
From Flocq Require Import Core BinarySingleNaN.
From Verif Require Import Prelude Lists RealOps Hyper FloatFeat FloatReg FloatSum FloatNG FloatClf FloatClfSum FloatHyper.
Local Open Scope R_scope.

(** ** Operations with a finite result *)
Lemma add_nonfin (a b : float64) : is_finite a = false \/ is_finite b = false -> is_finite (f_add a b) = false.
Proof. intros H. unfold f_add. destruct a as [[]|[]| |], b as [[]|[]| |]; cbn in H |- *; destruct H; try discriminate; reflexivity. Qed.
Lemma mul_nonfin (a b : float64) : is_finite a = false \/ is_finite b = false -> is_finite (f_mul a b) = false.
Proof. intros H. unfold f_mul. destruct a as [[]|[]| |], b as [[]|[]| |]; cbn in H |- *; destruct H; try discriminate; reflexivity. Qed.
Lemma fma_nonfin (a b c : float64) : is_finite a = false \/ is_finite b = false \/ is_finite c = false -> is_finite (f_fma a b c) = false.
Proof.
  intros H. unfold f_fma. destruct a as [[]|[]| |[]], b as [[]|[]| |[]], c as [[]|[]| |[]]; cbn in H |- *; destruct H as [H|[H|H]]; try discriminate H; reflexivity.
Qed.
Lemma overflow_inf m s (x : float64) : B2SF x = binary_overflow 53 1024 m s -> m = mode_NE -> is_finite x = false.
Proof. intros H ->. destruct x; cbn in H; try discriminate; reflexivity. Qed.
Lemma add_fin (a b : float64) : is_finite (f_add a b) = true -> is_finite a = true /\ is_finite b = true /\ B2R (f_add a b) = RN64 (B2R a + B2R b).
Proof.
  intros H. destruct (is_finite a) eqn:Fa; [|rewrite add_nonfin in H by auto; discriminate]. destruct (is_finite b) eqn:Fb; [|rewrite add_nonfin in H by auto; discriminate].
  split; [reflexivity|]. split; [reflexivity|]. generalize (Bplus_correct 53 1024 _ _ mode_NE a b Fa Fb).
  change (round_mode mode_NE) with (Znearest (fun x => negb (Z.even x))). destruct (Rlt_bool _ _); [intros (H1 & _); exact H1|].
  intros [H1 _]. apply overflow_inf in H1; [|reflexivity]. unfold f_add in H. rewrite H1 in H. discriminate.
Qed.
Lemma mul_fin (a b : float64) : is_finite (f_mul a b) = true -> B2R (f_mul a b) = RN64 (B2R a * B2R b).
Proof.
  intros H. generalize (Bmult_correct 53 1024 _ _ mode_NE a b).
  change (round_mode mode_NE) with (Znearest (fun x => negb (Z.even x))). destruct (Rlt_bool _ _); [intros (H1 & _); exact H1|].
  intros H1. apply overflow_inf in H1; [|reflexivity]. unfold f_mul in H. rewrite H1 in H. discriminate.
Qed.
Lemma fma_fin (a b c : float64) : is_finite (f_fma a b c) = true -> is_finite c = true /\ B2R (f_fma a b c) = RN64 (B2R a * B2R b + B2R c).
Proof.
  intros H. destruct (is_finite a) eqn:Fa; [|rewrite fma_nonfin in H by auto; discriminate]. destruct (is_finite b) eqn:Fb; [|rewrite fma_nonfin in H by auto; discriminate].
  destruct (is_finite c) eqn:Fc; [|rewrite fma_nonfin in H by auto; discriminate].
  split; [reflexivity|]. generalize (Bfma_correct 53 1024 _ _ mode_NE a b c Fa Fb Fc).
  change (round_mode mode_NE) with (Znearest (fun x => negb (Z.even x))). cbv zeta. destruct (Rlt_bool _ _); [intros (H1 & _); exact H1|].
  intros H1. apply overflow_inf in H1; [|reflexivity]. unfold f_fma in H. rewrite H1 in H. discriminate.
Qed.
Lemma fma_ok (a b c : float64) : is_finite a = true -> is_finite b = true -> is_finite c = true -> Rabs (B2R a * B2R b + B2R c) <= b2 1023 ->
  is_finite (f_fma a b c) = true /\ B2R (f_fma a b c) = RN64 (B2R a * B2R b + B2R c).
Proof.
  intros Fa Fb Fc H. generalize (Bfma_correct 53 1024 _ _ mode_NE a b c Fa Fb Fc).
  change (round_mode mode_NE) with (Znearest (fun x => negb (Z.even x))). cbv zeta. rewrite Rlt_bool_true by (apply big_ok, H). intros (H1 & H2 & _). auto.
Qed.
Lemma div_nonfin (a b : float64) : is_finite b = false -> is_finite (f_div a b) = false \/ B2R (f_div a b) = 0.
Proof. intros H. unfold f_div. destruct a as [[]|[]| |], b as [[]|[]| |]; cbn in H |- *; try discriminate H; auto. Qed.
Lemma div_zero (a b : float64) : is_finite b = true -> B2R b = 0 -> is_finite (f_div a b) = false.
Proof.
  intros H E. destruct b as [s|s| |s m e Hb]; try discriminate.
  - unfold f_div. destruct a as [[]|[]| |]; reflexivity.
  - exfalso. revert E. cbn. destruct s; apply F2R_neq_0; discriminate.
Qed.
Lemma div_fin (a b : float64) : B2R b <> 0 -> is_finite (f_div a b) = true -> B2R (f_div a b) = RN64 (B2R a / B2R b).
Proof.
  intros Hb H. generalize (Bdiv_correct 53 1024 _ _ mode_NE a b Hb).
  change (round_mode mode_NE) with (Znearest (fun x => negb (Z.even x))). destruct (Rlt_bool _ _); [intros (H1 & _); exact H1|].
  intros H1. apply overflow_inf in H1; [|reflexivity]. unfold f_div in H. rewrite H1 in H. discriminate.
Qed.

(** ** Dot products *)
Definition dsum (l : list (float64 * float64)) : R := vsum (map (fun p => B2R (fst p) * B2R (snd p)) l).
Definition dabs (l : list (float64 * float64)) : R := vsum (map (fun p => Rabs (B2R (fst p) * B2R (snd p))) l).
Definition fin_pair (p : float64 * float64) : Prop := is_finite (fst p) = true /\ is_finite (snd p) = true.

Lemma dabs_cons a b l : dabs ((a, b) :: l) = Rabs (B2R a * B2R b) + dabs l. Proof. reflexivity. Qed.
Lemma dsum_cons a b l : dsum ((a, b) :: l) = B2R a * B2R b + dsum l. Proof. reflexivity. Qed.
Lemma dabs_app l l' : dabs (l ++ l') = dabs l + dabs l'. Proof. unfold dabs. rewrite map_app. apply vsum_app'. Qed.
Lemma dsum_app l l' : dsum (l ++ l') = dsum l + dsum l'. Proof. unfold dsum. rewrite map_app. apply vsum_app'. Qed.
Lemma dabs_pos l : 0 <= dabs l.
Proof. induction l as [|[a b] l IH]; [unfold dabs, vsum; simpl; lra|]. rewrite dabs_cons. pose proof (Rabs_pos (B2R a * B2R b)). lra. Qed.
Lemma dsum_dabs l : Rabs (dsum l) <= dabs l.
Proof.
  induction l as [|[a b] l IH]; [unfold dabs, dsum, vsum; simpl; rewrite Rabs_R0; lra|]. rewrite dabs_cons, dsum_cons.
  eapply Rle_trans; [apply Rabs_triang|]. lra.
Qed.

(** A non-finite factor makes the result non-finite. *)
Lemma dot_nonfin l x : dot_of l x -> (exists p, In p l /\ (is_finite (fst p) = false \/ is_finite (snd p) = false)) -> is_finite x = false.
Proof.
  induction 1 as [|a b|l l' x x' H1 IH1 H2 IH2|a b l x H IH|l l' x Hp H IH]; intros (p & Hin & Hf).
  - destruct Hin.
  - destruct Hin as [<-|[]]. apply mul_nonfin. exact Hf.
  - apply add_nonfin. apply in_app_iff in Hin as [Hin|Hin]; [left; apply IH1|right; apply IH2]; eauto.
  - apply fma_nonfin. destruct Hin as [<-|Hin]; [cbn [fst snd] in Hf; tauto|]. right. right. apply IH. eauto.
  - apply IH. exists p. split; [|exact Hf]. eapply Permutation_in; [apply Permutation_sym|]; eauto.
Qed.

Lemma err_step u eta n1 n2 s1 s2 e1 e2 : 0 < u <= / 9007199254740992 -> 0 < eta -> 1 <= n1 -> 1 <= n2 -> n1 + n2 <= 1048576 -> 0 <= s1 -> 0 <= s2 ->
  e1 <= 2 * n1 * u * s1 + (2 * n1 - 1) * eta -> e2 <= 2 * n2 * u * s2 + (2 * n2 - 1) * eta ->
  e1 + e2 + (u * (s1 + s2 + e1 + e2) + eta / 2) <= 2 * (n1 + n2) * u * (s1 + s2) + (2 * (n1 + n2) - 1) * eta.
Proof.
  intros Hu He H1 H2 Hn Hs1 Hs2 E1 E2. set (n := n1 + n2) in *. set (s := s1 + s2) in *. set (e := e1 + e2).
  assert (Hs : 0 <= s) by (unfold s; lra). assert (Hn1 : 2 <= n) by (unfold n; lra).
  assert (A1 : n1 * (u * s1) <= (n - 1) * (u * s1)) by (apply Rmult_le_compat_r; [apply Rmult_le_pos; lra|unfold n; lra]).
  assert (A2 : n2 * (u * s2) <= (n - 1) * (u * s2)) by (apply Rmult_le_compat_r; [apply Rmult_le_pos; lra|unfold n; lra]).
  assert (He' : e <= 2 * (n - 1) * (u * s) + (2 * n - 2) * eta) by (unfold e, s, n in *; lra).
  assert (Hus : 0 <= u * s) by (apply Rmult_le_pos; lra).
  assert (Hnu : (n - 1) * u <= / 1000000000) by (assert ((n - 1) * u <= 1048576 * / 9007199254740992) by (apply Rmult_le_compat; lra); lra).
  assert (B1 : (n - 1) * (u * s) <= s * / 1000000000).
  { replace ((n - 1) * (u * s)) with (s * ((n - 1) * u)) by ring. apply Rmult_le_compat_l; lra. }
  assert (B2 : (n - 1) * eta <= 1048576 * eta) by (apply Rmult_le_compat_r; lra).
  assert (Hue : u * e <= u * s * / 100000000 + / 1000000 * eta).
  { apply Rle_trans with (u * (2 * (n - 1) * (u * s) + (2 * n - 2) * eta)); [apply Rmult_le_compat_l; lra|].
    replace (u * (2 * (n - 1) * (u * s) + (2 * n - 2) * eta)) with (2 * ((n - 1) * u) * (u * s) + 2 * ((n - 1) * u) * eta) by ring.
    assert ((n - 1) * u * (u * s) <= / 1000000000 * (u * s)) by (apply Rmult_le_compat_r; lra).
    assert ((n - 1) * u * eta <= / 1000000000 * eta) by (apply Rmult_le_compat_r; lra). lra. }
  replace (u * (s + e1 + e2)) with (u * s + u * e) by (unfold e; ring). fold e.
  replace (2 * n * u * s) with (2 * (n - 1) * (u * s) + 2 * (u * s)) by ring. lra.
Qed.

Lemma err_size u eta n s e : 0 < u <= / 9007199254740992 -> 0 < eta <= / 16777216 -> 0 <= n <= 1048576 -> 0 <= s -> e <= 2 * n * u * s + (2 * n - 1) * eta -> e <= s + 1.
Proof.
  intros Hu He Hn Hs E. assert (Hnu : n * u <= / 1000000000) by (assert (n * u <= 1048576 * / 9007199254740992) by (apply Rmult_le_compat; lra); lra).
  assert (n * u * s <= / 1000000000 * s) by (apply Rmult_le_compat_r; lra).
  assert (n * eta <= 1048576 * / 16777216) by (apply Rmult_le_compat; lra). lra.
Qed.
(** The error of at most 2^20 products. *)
Lemma dot_err l x : dot_of l x -> Forall fin_pair l -> dabs l <= b2 950 -> INR (length l) <= b2 20 ->
  is_finite x = true /\ (l = [] -> B2R x = 0) /\
  (l <> [] -> Rabs (B2R x - dsum l) <= 2 * INR (length l) * u53 * dabs l + (2 * INR (length l) - 1) * b2 (-1074)).
Proof.
  assert (E0 : b2 (-1075) = b2 (-1074) / 2).
  { change (-1075)%Z with (-1074 + -1)%Z. rewrite bpow_plus. change (b2 (-1)) with (/ 2). lra. }
  assert (B950 : 1 <= b2 950 /\ 4 * b2 950 <= b2 1023).
  { split; [change 1 with (b2 0); apply b2_le; lia|]. change 4 with (b2 2). rewrite <- bpow_plus. apply b2_le. lia. }
  assert (Hu : 0 < u53 <= / 9007199254740992) by (rewrite u53_val; lra).
  assert (He : 0 < b2 (-1074) <= / 16777216) by (split; [apply b2_pos|change (/ 16777216) with (b2 (-24)); apply b2_le; lia]).
  assert (HN : b2 20 = 1048576) by reflexivity. rewrite HN.
  assert (Hlen : forall m : list (float64 * float64), m <> [] -> 1 <= INR (length m)).
  { intros m Hm. destruct m; [congruence|]. cbn [length]. rewrite S_INR. pose proof (pos_INR (length m)). lra. }
  induction 1 as [|a b|l l' x x' H1 IH1 H2 IH2|a b l x H IH|l l' x Hp H IH]; intros Hf Hs Hl.
  - split; [reflexivity|]. split; [reflexivity|]. congruence.
  - inversion Hf as [|? ? [Fa Fb] _]; subst. cbn [fst snd] in *. rewrite dabs_cons in *. unfold dabs at 1, vsum in Hs. cbn [map fold_right] in Hs.
    destruct (mul_ok a b Fa Fb) as [F E]; [lra|]. split; [exact F|]. split; [discriminate|]. intros _. rewrite dsum_cons, E. unfold dsum, dabs, vsum. cbn [map fold_right length INR].
    rewrite !Rplus_0_r. pose proof (RN64_err (B2R a * B2R b)). pose proof (Rabs_pos (B2R a * B2R b)). pose proof (Rmult_le_pos u53 (Rabs (B2R a * B2R b))). lra.
  - apply Forall_app in Hf as [Hf1 Hf2]. rewrite app_length, plus_INR in *. rewrite dabs_app, dsum_app in *.
    pose proof (dabs_pos l) as D1. pose proof (dabs_pos l') as D2. pose proof (pos_INR (length l)) as P1. pose proof (pos_INR (length l')) as P2.
    destruct (IH1 Hf1) as (F1 & Z1 & R1); [lra|lra|]. destruct (IH2 Hf2) as (F2 & Z2 & R2); [lra|lra|]. clear IH1 IH2.
    pose proof (dsum_dabs l) as G1. pose proof (dsum_dabs l') as G2.
    assert (Q : forall (m : list (float64 * float64)) (z : float64), (m = [] -> B2R z = 0) -> (m <> [] -> Rabs (B2R z - dsum m) <= 2 * INR (length m) * u53 * dabs m + (2 * INR (length m) - 1) * b2 (-1074)) ->
      INR (length m) <= 1048576 -> Rabs (B2R z) <= 2 * dabs m + 1).
    { intros m z Hz Hr Hm. pose proof (dabs_pos m). pose proof (dsum_dabs m). destruct m as [|p m]; [rewrite (Hz eq_refl), Rabs_R0; lra|].
      specialize (Hr ltac:(discriminate)). apply err_size in Hr; [|exact Hu|exact He|split; [apply pos_INR|exact Hm]|assumption].
      replace (B2R z) with (B2R z - dsum (p :: m) + dsum (p :: m)) by ring. eapply Rle_trans; [apply Rabs_triang|]. lra. }
    pose proof (Q l x Z1 R1 ltac:(lra)) as Q1. pose proof (Q l' x' Z2 R2 ltac:(lra)) as Q2. clear Q.
    destruct (add_ok x x' F1 F2) as [F E]; [eapply Rle_trans; [apply Rabs_triang|]; lra|]. split; [exact F|].
    split; [intros E'; apply app_eq_nil in E' as [-> ->]; rewrite E, (Z1 eq_refl), (Z2 eq_refl), Rplus_0_r; apply RN64_0|]. intros Hne.
    destruct l as [|p1 l]; [|destruct l' as [|p2 l']].
    + rewrite E, (Z1 eq_refl), Rplus_0_l, RN64_fmt by apply fmt_B2R. specialize (R2 Hne). revert R2. unfold dsum at 2, dabs at 2, vsum. cbn [map fold_right length INR app]. rewrite !Rplus_0_l. auto.
    + rewrite E, (Z2 eq_refl), Rplus_0_r, RN64_fmt by apply fmt_B2R. specialize (R1 ltac:(discriminate)). revert R1. unfold dsum at 3, dabs at 3, vsum. cbn [map fold_right INR]. change (INR (length (@nil (float64 * float64)))) with 0. rewrite !Rplus_0_r. auto.
    + specialize (R1 ltac:(discriminate)). specialize (R2 ltac:(discriminate)). set (m1 := p1 :: l) in *. set (m2 := p2 :: l') in *.
      pose proof (err_step u53 (b2 (-1074)) _ _ _ _ _ _ Hu (proj1 He) (Hlen m1 ltac:(discriminate)) (Hlen m2 ltac:(discriminate)) Hl D1 D2 R1 R2) as HS.
      eapply Rle_trans; [|exact HS]. rewrite E.
      replace (RN64 (B2R x + B2R x') - (dsum m1 + dsum m2)) with ((B2R x - dsum m1) + (B2R x' - dsum m2) + (RN64 (B2R x + B2R x') - (B2R x + B2R x'))) by ring.
      eapply Rle_trans; [apply Rabs_triang|]. apply Rplus_le_compat; [apply Rabs_triang|].
      eapply Rle_trans; [apply RN64_err|]. rewrite E0. apply Rplus_le_compat_r. apply Rmult_le_compat_l; [lra|].
      replace (B2R x + B2R x') with (dsum m1 + dsum m2 + ((B2R x - dsum m1) + (B2R x' - dsum m2))) by ring.
      eapply Rle_trans; [apply Rabs_triang|]. pose proof (Rabs_triang (dsum m1) (dsum m2)). pose proof (Rabs_triang (B2R x - dsum m1) (B2R x' - dsum m2)). lra.
  - inversion Hf as [|? ? [Fa Fb] Hf']; subst. cbn [fst snd] in *. rewrite dabs_cons, dsum_cons in *. cbn [length] in *. rewrite S_INR in *.
    pose proof (dabs_pos l) as D. pose proof (Rabs_pos (B2R a * B2R b)) as Dp. pose proof (pos_INR (length l)) as P1.
    destruct (IH Hf') as (F & Z & R0); [lra|lra|]. clear IH. pose proof (dsum_dabs l) as G1.
    assert (Q : Rabs (B2R x) <= 2 * dabs l + 1).
    { destruct l as [|p m]; [rewrite (Z eq_refl), Rabs_R0; lra|].
      specialize (R0 ltac:(discriminate)). apply err_size in R0; [|exact Hu|exact He|split; [apply pos_INR|lra]|assumption].
      replace (B2R x) with (B2R x - dsum (p :: m) + dsum (p :: m)) by ring. eapply Rle_trans; [apply Rabs_triang|]. lra. }
    destruct (fma_ok a b x Fa Fb F) as [F' E]; [eapply Rle_trans; [apply Rabs_triang|]; lra|]. split; [exact F'|]. split; [discriminate|]. intros _. rewrite E.
    destruct l as [|p m].
    + rewrite (Z eq_refl), Rplus_0_r. unfold dsum, dabs, vsum. cbn [map fold_right length INR]. rewrite !Rplus_0_r.
      pose proof (RN64_err (B2R a * B2R b)). pose proof (Rmult_le_pos u53 (Rabs (B2R a * B2R b))). lra.
    + specialize (R0 ltac:(discriminate)). set (l := p :: m) in *.
      assert (A0 : 0 <= 2 * 1 * u53 * Rabs (B2R a * B2R b) + (2 * 1 - 1) * b2 (-1074)) by (pose proof (Rmult_le_pos u53 (Rabs (B2R a * B2R b))); lra).
      pose proof (err_step u53 (b2 (-1074)) 1 (INR (length l)) (Rabs (B2R a * B2R b)) (dabs l) 0 _ Hu (proj1 He) (Rle_refl 1) (Hlen l ltac:(discriminate)) ltac:(lra) Dp D A0 R0) as HS.
      rewrite (Rplus_comm (INR (length l)) 1). eapply Rle_trans; [|exact HS].
      replace (RN64 (B2R a * B2R b + B2R x) - (B2R a * B2R b + dsum l)) with (0 + (B2R x - dsum l) + (RN64 (B2R a * B2R b + B2R x) - (B2R a * B2R b + B2R x))) by ring.
      eapply Rle_trans; [apply Rabs_triang|]. apply Rplus_le_compat; [rewrite !Rplus_0_l; lra|].
      eapply Rle_trans; [apply RN64_err|]. rewrite E0. apply Rplus_le_compat_r. apply Rmult_le_compat_l; [lra|].
      replace (B2R a * B2R b + B2R x) with (B2R a * B2R b + (dsum l + (B2R x - dsum l))) by ring.
      eapply Rle_trans; [apply Rabs_triang|]. pose proof (Rabs_triang (dsum l) (B2R x - dsum l)). lra.
  - assert (Ed : dabs l' = dabs l) by (symmetry; apply vsum_perm', Permutation_map, Hp). assert (Es : dsum l' = dsum l) by (symmetry; apply vsum_perm', Permutation_map, Hp).
    rewrite Ed, Es, <- (Permutation_length Hp) in *. destruct IH as (F & Z & R0); [eapply Permutation_Forall; [apply Permutation_sym|]; eauto|exact Hs|exact Hl|].
    split; [exact F|]. split; [intros ->; apply Z; apply Permutation_sym, Permutation_nil in Hp; exact Hp|]. intros Hne. apply R0. intros ->. apply Hne. apply Permutation_nil in Hp. exact Hp.
Qed.

(** ** The norm *)
Lemma RN64_tiny x : Rabs x <= b2 (-1076) -> RN64 x = 0.
Proof.
  intros H. assert (E : RN64 (b2 (-1076)) = 0).
  { apply round_N_small with (ex := (-1075)%Z).
    - rewrite Rabs_pos_eq by apply Rlt_le, b2_pos. split; [apply b2_le; lia|apply bpow_lt; lia].
    - vm_compute. reflexivity. }
  apply Rabs_le_inv in H. apply Rle_antisym.
  - rewrite <- E. apply RN64_le. lra.
  - replace 0 with (RN64 (- b2 (-1076))); [apply RN64_le; lra|]. rewrite round_NE_opp, E. lra.
Qed.
(** Computed sums of squares are at least each computed square. *)
Lemma square_ge l x : dot_of l x -> Forall (fun p => snd p = fst p) l -> is_finite x = true ->
  0 <= B2R x /\ forall a, In (a, a) l -> RN64 (B2R a * B2R a) <= B2R x.
Proof.
  induction 1 as [|a b|l l' x x' H1 IH1 H2 IH2|a b l x H IH|l l' x Hp H IH]; intros Hsq F.
  - split; [apply Rle_refl|]. intros a [].
  - inversion Hsq as [|? ? Eb _]; subst. cbn [fst snd] in Eb. subst b. rewrite (mul_fin a a F). split; [apply RN64_nonneg, Rle_0_sqr|].
    intros c [E|[]]. injection E as <-. apply Rle_refl.
  - apply Forall_app in Hsq as [S1 S2]. destruct (add_fin x x' F) as (F1 & F2 & E). destruct (IH1 S1 F1) as [N1 G1]. destruct (IH2 S2 F2) as [N2 G2].
    rewrite E. split; [apply RN64_nonneg; lra|]. intros a Ha. apply in_app_iff in Ha as [Ha|Ha].
    + eapply Rle_trans; [apply (G1 a Ha)|]. rewrite <- (RN64_fmt (B2R x) (fmt_B2R x)) at 1. apply RN64_le. lra.
    + eapply Rle_trans; [apply (G2 a Ha)|]. rewrite <- (RN64_fmt (B2R x') (fmt_B2R x')) at 1. apply RN64_le. lra.
  - inversion Hsq as [|? ? Eb Hl]; subst. cbn [fst snd] in Eb. subst b. destruct (fma_fin a a x F) as (F1 & E). destruct (IH Hl F1) as [N1 G1].
    rewrite E. pose proof (Rle_0_sqr (B2R a)) as Hq. unfold Rsqr in Hq. split; [apply RN64_nonneg; lra|]. intros c [Ec|Hc].
    + injection Ec as <-. apply RN64_le. lra.
    + eapply Rle_trans; [apply (G1 c Hc)|]. rewrite <- (RN64_fmt (B2R x) (fmt_B2R x)) at 1. apply RN64_le. lra.
  - destruct IH as [N1 G1]; [eapply Permutation_Forall; [apply Permutation_sym|]; eauto|exact F|]. split; [exact N1|]. intros a Ha. apply G1.
    eapply Permutation_in; [apply Permutation_sym|]; eauto.
Qed.
(** Squares of numbers up to 2^-538 vanish. *)
Lemma square_tiny l x : dot_of l x -> Forall (fun p => is_finite (fst p) = true /\ snd p = fst p /\ Rabs (B2R (fst p)) <= b2 (-538)) l -> is_finite x = true /\ B2R x = 0.
Proof.
  assert (T : forall a : float64, Rabs (B2R a) <= b2 (-538) -> Rabs (B2R a * B2R a) <= b2 (-1076)).
  { intros a Ha. rewrite Rabs_mult. change (-1076)%Z with (-538 + -538)%Z. rewrite bpow_plus. apply Rmult_le_compat; auto using Rabs_pos. }
  assert (B : b2 (-1076) <= b2 1023) by (apply b2_le; lia).
  induction 1 as [|a b|l l' x x' H1 IH1 H2 IH2|a b l x H IH|l l' x Hp H IH]; intros Hf.
  - split; reflexivity.
  - inversion Hf as [|? ? (Fa & Eb & Ha) _]; subst. cbn [fst snd] in *. subst b. specialize (T a Ha).
    destruct (mul_ok a a Fa Fa) as [F E]; [lra|]. split; [exact F|]. rewrite E. apply RN64_tiny, T.
  - apply Forall_app in Hf as [Hf1 Hf2]. destruct (IH1 Hf1) as [F1 E1]. destruct (IH2 Hf2) as [F2 E2].
    destruct (add_ok x x' F1 F2) as [F E]; [rewrite E1, E2, Rplus_0_r, Rabs_R0; apply Rlt_le, b2_pos|]. split; [exact F|]. rewrite E, E1, E2, Rplus_0_r. apply RN64_0.
  - inversion Hf as [|? ? (Fa & Eb & Ha) Hl]; subst. cbn [fst snd] in *. subst b. specialize (T a Ha). destruct (IH Hl) as [F1 E1].
    destruct (fma_ok a a x Fa Fa F1) as [F E]; [rewrite E1, Rplus_0_r; lra|]. split; [exact F|]. rewrite E, E1, Rplus_0_r. apply RN64_tiny, T.
  - apply IH. eapply Permutation_Forall; [apply Permutation_sym|]; eauto.
Qed.
Lemma RN64_half x : b2 (-1074) <= x -> x / 2 <= RN64 x.
Proof.
  intros Hx. assert (H0 : 0 < x) by (pose proof (b2_pos (-1074)); lra).
  destruct (mag radix2 x) as [m Hm]. specialize (Hm ltac:(lra)). rewrite Rabs_pos_eq in Hm by lra.
  assert (Hm' : (-1074 < m)%Z) by (apply (lt_bpow radix2); lra).
  assert (E : b2 m = 2 * b2 (m - 1)) by (replace m with (m - 1 + 1)%Z at 1 by lia; rewrite bpow_plus; change (b2 1) with 2; lra).
  assert (b2 (m - 1) <= RN64 x) by (rewrite <- (RN64_fmt (b2 (m - 1))) by (apply fmt64_bpow; lia); apply RN64_le; lra). lra.
Qed.
Lemma pos_ge_min (x : float64) : 0 < B2R x -> b2 (-1074) <= B2R x.
Proof.
  intros H. rewrite <- (Rabs_pos_eq (B2R x)) by lra. apply (abs_B2R_ge_emin 53 1024). destruct x; cbn in H |- *; try lra.
Qed.

(** ** The computed normal *)
Lemma max_finite : is_finite f_max = true.
Proof. reflexivity. Qed.
Lemma nan_to_num_finite x : is_finite (f_nan_to_num x) = true.
Proof. destruct x as [|[]| |]; try reflexivity. Qed.

Lemma quotient_small (l : list (float64 * float64)) S a : dot_of l S -> Forall (fun p => snd p = fst p) l -> In (a, a) l ->
  let q := f_div a (f_sqrt S) in is_finite q = true -> Rabs (B2R q) <= 2.
Proof.
  intros HS Hsq Ha q Fq. unfold q in *. clear q. destruct (is_finite (f_sqrt S)) eqn:FN.
  2: { destruct (div_nonfin a (f_sqrt S) FN) as [H|H]; [congruence|]. rewrite H, Rabs_R0. lra. }
  destruct (Bsqrt_correct 53 1024 _ _ mode_NE S) as (EN & FN' & _). change (round_mode mode_NE) with (Znearest (fun x => negb (Z.even x))) in EN.
  fold (f_sqrt S) in EN, FN'. rewrite FN in FN'.
  assert (FS : is_finite S = true) by (destruct S as [| | |[]]; cbn in FN' |- *; congruence).
  destruct (square_ge l S HS Hsq FS) as [S0 SG]. specialize (SG a Ha).
  destruct (Req_dec (B2R (f_sqrt S)) 0) as [Z|NZ]; [rewrite (div_zero a _ FN Z) in Fq; discriminate|].
  assert (Spos : 0 < B2R S). { destruct S0 as [S0|S0]; [exact S0|exfalso]. apply NZ. rewrite EN, <- S0, sqrt_0. apply RN64_0. }
  rewrite (div_fin a _ NZ Fq).
  assert (HN : 0 < B2R (f_sqrt S) /\ Rabs (B2R a) <= 2 * B2R (f_sqrt S)).
  { rewrite EN. assert (M1 : b2 (-537) <= sqrt (B2R S)).
    { rewrite <- (sqrt_square (b2 (-537))) by apply Rlt_le, b2_pos. apply sqrt_le_1; [apply Rmult_le_pos; apply Rlt_le, b2_pos|exact S0|].
      rewrite <- bpow_plus. exact (pos_ge_min S Spos). }
    assert (M2 : b2 (-537) <= RN64 (sqrt (B2R S))) by (rewrite <- (RN64_fmt (b2 (-537))) by (apply fmt64_bpow; lia); apply RN64_le, M1).
    pose proof (b2_pos (-537)) as P537. split; [lra|]. pose proof (Rabs_pos (B2R a)) as PA.
    destruct (Rle_or_lt (Rabs (B2R a)) (b2 (-537))) as [L|L]; [lra|].
    assert (EA : B2R a * B2R a = Rabs (B2R a) * Rabs (B2R a)) by (rewrite <- Rabs_mult; symmetry; apply Rabs_pos_eq, Rle_0_sqr).
    assert (HA : b2 (-1074) <= B2R a * B2R a).
    { rewrite EA. change (-1074)%Z with (-537 + -537)%Z. rewrite bpow_plus. apply Rmult_le_compat; lra. }
    apply RN64_half in HA. set (A := Rabs (B2R a)) in *.
    assert (HS' : 7 / 10 * A <= sqrt (B2R S)).
    { rewrite <- (sqrt_square (7 / 10 * A)) by lra. apply sqrt_le_1; [apply Rmult_le_pos; lra|exact S0|]. rewrite EA in *.
      pose proof (Rmult_le_pos A A PA PA). lra. }
    pose proof (RN64_rel (sqrt (B2R S))) as HR. rewrite (Rabs_pos_eq (sqrt _)) in HR by apply sqrt_pos.
    assert (B1 : b2 (-1022) <= b2 (-537)) by (apply b2_le; lia). specialize (HR ltac:(lra)). apply Rabs_le_inv in HR.
    change (bpow radix2 (-53)) with (/ 9007199254740992) in HR. lra. }
  destruct HN as [HN1 HN2]. change 2 with (b2 1). apply RN64_abs_le; [lia|]. unfold Rdiv. rewrite Rabs_mult, Rabs_inv, (Rabs_pos_eq (B2R (f_sqrt S))) by lra.
  change (b2 1) with 2. apply (Rmult_le_reg_r (B2R (f_sqrt S))); [exact HN1|]. rewrite Rmult_assoc, Rinv_l by lra. lra.
Qed.

Section Unit.
Variables (fdot : list float64 -> list float64 -> float64).
Hypothesis dot_is : forall a b, length a = length b -> dot_of (combine a b) (fdot a b).
Lemma combine_same {T} (l : list T) : combine l l = map (fun a => (a, a)) l.
Proof. induction l; simpl; congruence. Qed.
Lemma self_sq {T} (l : list T) : Forall (fun p => snd p = fst p) (combine l l).
Proof. rewrite combine_same. apply Forall_forall. intros p Hp. apply in_map_iff in Hp as (a & <- & _). reflexivity. Qed.
Lemma unit_length v : length (f_unit fdot v) = length v.
Proof. unfold f_unit. rewrite map_length. destruct (forallb _ _); rewrite ?set_nth_length, map_length; reflexivity. Qed.
Lemma unit_small v x : In x (f_unit fdot v) -> is_finite x = true -> Rabs (B2R x) <= 2.
Proof.
  unfold f_unit. set (w := if forallb _ _ then _ else _). intros Hx. apply in_map_iff in Hx as (a & <- & Ha).
  apply (quotient_small (combine w w) (fdot w w) a); [apply dot_is; reflexivity|apply self_sq|]. rewrite combine_same. apply in_map_iff. eauto.
Qed.
(** A vector of tiny numbers that are not all 0: the norm underflows and no entry of the quotient is finite. *)
Lemma unit_tiny v : Forall (fun a => is_finite a = true /\ Rabs (B2R a) <= b2 (-538)) v -> (exists a, In a v /\ B2R a <> 0) ->
  forall x, In x (f_unit fdot v) -> is_finite x = false.
Proof.
  intros Hv (a0 & Ha0 & Hn0) x. assert (E1 : map f_nan_to_num v = v).
  { rewrite <- (map_id v) at 2. apply map_ext_in. intros a Ha. rewrite Forall_forall in Hv. destruct (Hv a Ha) as [F _]. destruct a; try discriminate; reflexivity. }
  unfold f_unit. rewrite E1. assert (E2 : forallb (fun y => Beqb y f_zero) v = false).
  { apply Bool.not_true_is_false. intros H. rewrite forallb_forall in H. specialize (H a0 Ha0). rewrite Forall_forall in Hv. destruct (Hv a0 Ha0) as [F _].
    rewrite Beqb_correct in H by (try exact F; reflexivity). apply Hn0. change (B2R f_zero) with 0 in H. destruct (Req_bool_spec (B2R a0) 0); [assumption|discriminate]. }
  rewrite E2. intros Hx. apply in_map_iff in Hx as (a & <- & Ha).
  destruct (square_tiny (combine v v) (fdot v v)) as [F0 Z0]; [apply dot_is; reflexivity| |].
  - rewrite combine_same. apply Forall_forall. intros p Hp. apply in_map_iff in Hp as (b & <- & Hb). rewrite Forall_forall in Hv. destruct (Hv b Hb). auto.
  - destruct (Bsqrt_correct 53 1024 _ _ mode_NE (fdot v v)) as (EN & FN & _). apply div_zero.
    + unfold f_sqrt. rewrite FN. destruct (fdot v v) as [| | |s m e He]; try discriminate F0; [reflexivity|]. exfalso. revert Z0. cbn. destruct s; apply F2R_neq_0; discriminate.
    + unfold f_sqrt. rewrite EN, Z0, sqrt_0. apply RN64_0.
Qed.
End Unit.
